(* Totality of evaluation, Jacobians, coefficient accessors, linearity, locality. *)
From mathcomp Require Import all_ssreflect all_algebra.
From mathcomp.algebra_tactics Require Import ring.
From mathcomp.zify Require Import zify.
From Verif Require Import Prelude CoxDeBoor CoxDeBoorProofs BSplineModel BSplineSpec
  BSplineProofs BSplineEvalProofs.
Set Implicit Arguments.
Unset Strict Implicit.
Unset Printing Implicit Defensive.
Import GRing.Theory Num.Theory Order.Theory.
Local Open Scope ring_scope.

Section Loops.
Variable F : realFieldType.

(* loop writing u_i * Identity into block column i *)
Lemma diag_blocks_loop (D k : nat) (u : nat -> F) (off : nat -> nat) :
  (forall i, off i = i * D)%N ->
  forall r c, (r < D)%N -> (c < k * D)%N ->
  floop 0 k (fun i (J : mat F) => set_block J 0 (off i) D D (fun r c => eyem r c * u i)) zerom r c
  = (r == (c %% D)%N)%:R * u (c %/ D)%N.
Proof.
move=> offE r c rD ckD.
set body := fun i (J : mat F) => _.
suff H : forall c, floop 0 k body zerom r c =
    if (c < k * D)%N then (r == (c %% D)%N)%:R * u (c %/ D)%N else 0 by rewrite H ckD.
apply: (@floop_ind _ 0 k body zerom (fun i J => forall c, J r c =
   if (c < i * D)%N then (r == (c %% D)%N)%:R * u (c %/ D)%N else 0)) => //.
move=> i J /andP[_ ik] HJ c'; rewrite /body /set_block offE /= rD /=.
have D0 : (0 < D)%N by apply: leq_ltn_trans rD.
case: (leqP (i * D) c') => h1 /=; last first.
  by rewrite HJ h1 (leq_trans h1) // mulSn leq_addl.
rewrite mulSnr; case: ifP => h2; last by rewrite HJ ltnNge h1.
have e1 : (c' %/ D = i)%N.
  apply/eqP; rewrite eqn_leq -ltnS -[(_ < i.+1)%N]/((c' %/ D) < i.+1)%N.
  by rewrite ltn_divLR // mulSnr h2 /= leq_divRL.
have e2 : (c' - i * D = c' %% D)%N by rewrite {1}(divn_eq c' D) e1 addKn.
by rewrite e1 e2 /eyem subn0.
Qed.

Lemma diag_blocks_mulv (D k : nat) (u : nat -> F) (J : mat F) (w : nat -> F) r :
  (r < D)%N ->
  (forall c, (c < k * D)%N -> J r c = (r == (c %% D)%N)%:R * u (c %/ D)%N) ->
  mulv (k * D) J w r = fsum k (fun i => w (i * D + r)%N * u i).
Proof.
move=> rD HJ; rewrite /mulv fsum_nested; apply: eq_fsum => i ik.
have D0 : (0 < D)%N by apply: leq_ltn_trans rD.
have key c : (c < D)%N -> ((i * D + c) %% D = c)%N /\ ((i * D + c) %/ D = i)%N.
  by move=> cD; rewrite modnMDl modn_small // divnMDl // divn_small // addn0.
have lt c : (c < D)%N -> (i * D + c < k * D)%N.
  by move=> cD; apply: (@leq_trans (i.+1 * D)); [rewrite mulSnr ltn_add2l|rewrite leq_mul2r ik orbT].
rewrite (fsum_pick (j := r)) //.
  by rewrite HJ ?lt //; have [-> ->] := key _ rD; rewrite eqxx mul1r mulrC.
move=> c cD ne; rewrite HJ ?lt //; have [-> _] := key _ cD.
by rewrite eq_sym (negbTE ne) !mul0r.
Qed.

(* loop writing segments of a vector *)
Lemma segments_loop (D m : nat) (f : nat -> vec F) (z : vec F) i r : (r < D)%N -> (i < m)%N ->
  floop 0 m (fun i (c : vec F) => set_segment c (i * D) D (f i)) z (i * D + r)%N = f i r.
Proof.
move=> rD; elim: m => [//|m IH] im; rewrite floopSr // /set_segment.
rewrite ltnS leq_eqVlt in im; case/orP: im => [/eqP <-|im].
  by rewrite leq_addr ltn_add2l rD /= addKn.
have h : (i * D + r < m * D)%N.
  by apply: (@leq_trans (i.+1 * D)); [rewrite mulSnr ltn_add2l|rewrite leq_mul2r im orbT].
by rewrite leqNgt h /= IH.
Qed.

Lemma set_cols_loop (m b : nat) (f : nat -> vec F) (C : mat F) r j :
  floop 0 m (fun i (C : mat F) => set_col C (i + b) (f i)) C r j =
  if ((b <= j) && (j < m + b))%N then f (j - b)%N r else C r j.
Proof.
elim: m => [|m IH]; first by rewrite floop_nil //; case: ifP => //; lia.
rewrite floopSr // /set_col; case: eqP => [->|/eqP ne].
  by rewrite leq_addl ltnS leqnn /= addnK.
rewrite IH; congr (if _ then _ else _); lia.
Qed.
End Loops.

Section Access.
Variable F : realFieldType.
Variable eps : F.
Variable s : bspline F.
Hypothesis wfs : wf s.
Local Notation k := (bs_order s).
Local Notation n := (size (bs_knots s)).

(* The common front part of all evaluation functions succeeds. *)
Lemma eval_front x i d : segment_of eps s x i ->
  exists uval u, [/\ computeUAndTIndex eps s x = Ok (uval, i), computeU s uval i d = Ok u,
    segment_access s i = Ok (i.+1 - k)%N
    & kn s i < kn s i.+1 -> forall c, (c < k)%N ->
      fsum k (fun q => basis_at s (i.+1 - k) q c * u q) = weight s x i d c].
Proof.
move=> seg; have [ki iN] := segment_of_range wfs seg.
have iN' : (i.+1 < n)%N by have := wf_order wfs; lia.
rewrite /computeUAndTIndex (computeTIndexE wfs seg) /= subr_le0.
have [le|lt] := leP (kn s i.+1) (kn s i).
  have [u h _] := @computeUE _ s 0 i d iN'; exists 0, u; split=> //.
  exact: (segment_accessE wfs ki iN).
have [u h Hu] := @computeUE _ s ((x - kn s i) / (kn s i.+1 - kn s i)) i d iN'.
exists ((x - kn s i) / (kn s i.+1 - kn s i)), u; split=> //.
  exact: (segment_accessE wfs ki iN).
move=> _; apply: (weightE wfs (d := d) seg lt) => q qk; exact: Hu.
Qed.

Lemma evalD_total x d : 0 < eps ->
  if (tmin s <= x) && (x < tmax s + eps) then exists v, evalD eps s x d = Ok v
  else evalD eps s x d = Throw ExnSpline.
Proof.
move=> e0; case: ifPn => [/andP[x1 x2]|].
  have [i seg] := segment_exists wfs e0 x1 x2.
  have [uval [u [h1 h2 h3 _]]] := eval_front d seg.
  by rewrite /evalD h1 /= h2 /= h3 /=; eexists.
rewrite negb_and -ltNge -leNgt => /orP h.
by rewrite /evalD /computeUAndTIndex computeTIndex_throw.
Qed.

Lemma Phi_total x d : 0 < eps ->
  if (tmin s <= x) && (x < tmax s + eps) then exists v, Phi eps s x d = Ok v
  else Phi eps s x d = Throw ExnSpline.
Proof.
move=> e0; case: ifPn => [/andP[x1 x2]|].
  have [i seg] := segment_exists wfs e0 x1 x2.
  have [uval [u [h1 h2 h3 _]]] := eval_front d seg.
  by rewrite /Phi h1 /= h2 /= h3 /=; eexists.
rewrite negb_and -ltNge -leNgt => /orP h.
by rewrite /Phi /computeUAndTIndex computeTIndex_throw.
Qed.

Lemma evalDAndJacobian_total x d : 0 < eps ->
  if (tmin s <= x) && (x < tmax s + eps) then exists v, evalDAndJacobian eps s x d = Ok v
  else evalDAndJacobian eps s x d = Throw ExnSpline.
Proof.
move=> e0; case: ifPn => [/andP[x1 x2]|].
  have [i seg] := segment_exists wfs e0 x1 x2.
  have [uval [u [h1 h2 h3 _]]] := eval_front d seg.
  by rewrite /evalDAndJacobian h1 /= h2 /= h3 /=; eexists.
rewrite negb_and -ltNge -leNgt => /orP h.
by rewrite /evalDAndJacobian /computeUAndTIndex computeTIndex_throw.
Qed.

Lemma localBi_weight x i : segment_of eps s x i -> kn s i < kn s i.+1 ->
  exists2 l, getLocalBiVector eps s x = Ok l &
    dv_size l = k /\ forall c, (c < k)%N -> l c = weight s x i 0 c.
Proof.
move=> seg pos; have [ki iN] := segment_of_range wfs seg.
have [uval [u [h1 h2 h3 h4]]] := eval_front 0 seg.
rewrite /getLocalBiVector /segmentIndex (computeTIndexE wfs seg) /= ki /=.
rewrite /u_vec h1 /= h2 /=.
have := wf_size wfs; have := wf_order wfs => hk hn.
rewrite /basisMatrixIndexFromStartingKnotIndex size_basis //.
have -> : (i.+1 - k < n.+1 - 2 * k)%N by lia.
rewrite /=; eexists; first by reflexivity.
split=> // c ck /=; rewrite -h4 //.
suff H : forall m, (c < m)%N -> floop 0 m (fun j (ret : vec F) =>
   upd ret j (dotv k u (fun r => basis_at s (i.+1 - k) r j))) zerov c
   = dotv k u (fun r => basis_at s (i.+1 - k) r c).
  by rewrite H //; apply: eq_fsum => q _; rewrite mulrC.
elim=> [//|m IH] cm; rewrite floopSr // /upd.
case: eqP => [->//|/eqP ne]; apply: IH; lia.
Qed.

Lemma weight_partition x i : (k <= i.+1)%N -> (i + k < n)%N -> kn s i < kn s i.+1 ->
  fsum k (fun c => weight s x i 0 c) = 1.
Proof.
move=> ki iN pos; have := wf_order wfs => hk.
have H := @basis_poly_partition _ (kn s) n (kn_mono wfs) i pos k.-1 _ _.
have := congr1 (fun p => p.[x]) (H ltac:(lia) ltac:(lia)).
rewrite hornerC => <-; have -> : (k.-1.+1 = k)%N by lia.
rewrite !fsumE horner_sum; apply: eq_bigr => c _; rewrite /weight derivn0.
by have -> : (i.+1 - k = i - k.-1)%N by lia.
Qed.

Lemma weight_partition_deriv x i d : (0 < d)%N -> (k <= i.+1)%N -> (i + k < n)%N ->
  kn s i < kn s i.+1 -> fsum k (fun c => weight s x i d c) = 0.
Proof.
move=> d0 ki iN pos; have := wf_order wfs => hk.
have H := @basis_poly_partition _ (kn s) n (kn_mono wfs) i pos k.-1 _ _.
have := congr1 (fun p => p^`(d).[x]) (H ltac:(lia) ltac:(lia)).
rewrite derivnC -[d]prednK // horner0 => <-; have -> : (k.-1.+1 = k)%N by lia.
rewrite !fsumE raddf_sum horner_sum; apply: eq_bigr => c _; rewrite /weight.
by have -> : (i.+1 - k = i - k.-1)%N by lia.
Qed.

Lemma weight_nonneg x i c : (k <= i.+1)%N -> (i + k < n)%N -> kn s i < kn s i.+1 ->
  kn s i <= x -> x <= kn s i.+1 -> 0 <= weight s x i 0 c.
Proof.
move=> ki iN pos x1 x2; rewrite /weight derivn0.
apply: (basis_poly_nonneg (kn_mono wfs) pos) => //.
have := wf_order wfs; lia.
Qed.
End Access.
