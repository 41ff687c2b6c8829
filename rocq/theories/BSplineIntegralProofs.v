(* evalIntegral is the difference of a piecewise antiderivative. *)
From mathcomp Require Import all_ssreflect all_algebra.
From mathcomp.algebra_tactics Require Import ring.
From mathcomp.zify Require Import zify.
From Verif Require Import Prelude CoxDeBoor CoxDeBoorProofs BSplineModel BSplineSpec
  BSplineProofs BSplineEvalProofs BSplineAccessProofs BSplineCoefProofs BSplineInitProofs
  BSplineMoreProofs.
Set Implicit Arguments.
Unset Strict Implicit.
Unset Printing Implicit Defensive.
Import GRing.Theory Num.Theory Order.Theory.
Local Open Scope ring_scope.

Section Deriv.
Variable F : realFieldType.
Lemma deriv_eq0 (p : {poly F}) : p^`() = 0 -> p = (p`_0)%:P.
Proof.
move=> d0; apply/polyP => -[|i]; rewrite coefC //=.
have := congr1 (fun q : {poly F} => q`_i) d0; rewrite coef_deriv coef0 => /eqP.
by rewrite mulrn_eq0 /= => /eqP.
Qed.

Lemma deriv_same (p q : {poly F}) x y : p^`() = q^`() -> p.[x] - p.[y] = q.[x] - q.[y].
Proof.
move=> e; have := @deriv_eq0 (p - q); rewrite derivB e subrr => /(_ erefl) c.
have h z : p.[z] - q.[z] = (p - q)`_0 by rewrite -hornerN -hornerD c hornerC coefC.
have hp z : p.[z] = (p - q)`_0 + q.[z] by rewrite -(h z) subrK.
by rewrite !hp; ring.
Qed.

(* an explicit antiderivative *)
Definition antip (p : {poly F}) : {poly F} :=
  \poly_(i < (size p).+1) (if i is j.+1 then p`_j / j.+1%:R else 0).
Lemma antipK p : (antip p)^`() = p.
Proof.
apply/polyP => i; rewrite coef_deriv coef_poly ltnS.
case: ltnP => h; last by rewrite mul0rn nth_default.
by rewrite -mulr_natr mulfVK // pnatr_eq0.
Qed.
End Deriv.

Section Piece.
Variable F : realFieldType.
Variable s : bspline F.
Hypothesis wfs : wf s.
Local Notation k := (bs_order s).
Local Notation n := (size (bs_knots s)).

Definition mono r i q : F :=
  fsum k (fun c => bs_coef s r (i.+1 - k + c)%N * basis_at s (i.+1 - k) q c).

Lemma piece_mono r i : (k <= i.+1)%N -> (i + k < n)%N -> kn s i < kn s i.+1 ->
  spline_piece s r i = fsum k (fun q => mono r i q *: lin (kn s) i ^+ q).
Proof.
move=> ki iN pos; have hk := wf_order wfs; have hn := wf_size wfs; have hc := wf_cols wfs.
rewrite /spline_piece curve_piece_local; [|lia..].
have -> : (k.-1.+1 = k)%N by lia.
rewrite [RHS](eq_fsum (g := fun q => fsum k (fun c => bs_coef s r (i.+1 - k + c)%N *:
    (basis_at s (i.+1 - k) q c *: lin (kn s) i ^+ q)))); last first.
  move=> q _; rewrite /mono !fsumE scaler_suml; apply: eq_bigr => c _; by rewrite scalerA.
rewrite exchange_fsum; apply: eq_fsum => c ck.
rewrite -fsum_scale; have e : (i - k.-1 = i.+1 - k)%N by lia.
rewrite e; congr (_ *: _); rewrite -e.
rewrite -(Mmat_poly (N := n) (kn_mono wfs) pos) //; [|lia..].
have -> : (k.-1.+1 = k)%N by lia.
apply: eq_fsum => q _; rewrite basis_nth //; [|lia..].
by have -> : (i - k.-1 + k - 1 = i)%N by lia.
Qed.

(* antiderivative of the piece in powers of the local coordinate *)
Definition amono r i : {poly F} :=
  fsum k (fun q => (mono r i q * (kn s i.+1 - kn s i) / q.+1%:R) *: lin (kn s) i ^+ q.+1).

Lemma lin_deriv i : (lin (kn s) i)^`() = ((kn s i.+1 - kn s i)^-1)%:P.
Proof. by rewrite /lin derivZ derivB derivX derivC subr0 alg_polyC. Qed.

Lemma amono_deriv r i : (k <= i.+1)%N -> (i + k < n)%N -> kn s i < kn s i.+1 ->
  (amono r i)^`() = spline_piece s r i.
Proof.
move=> ki iN pos; rewrite piece_mono // /amono !fsumE raddf_sum; apply: eq_bigr => q _ /=.
have w0 : kn s i.+1 - kn s i != 0 by rewrite subr_eq0 gt_eqF.
have q0 : q.+1%:R != 0 :> F by rewrite pnatr_eq0.
rewrite derivZ deriv_exp lin_deriv mul_polyC -scalerMnr -scaler_nat !scalerA -pred_Sn.
by congr (_ *: _); move: q0; move: (q.+1%:R) => z q0; field; rewrite w0 q0.
Qed.

Lemma integral_partE i w v : (k <= i.+1)%N -> (i + k < n)%N ->
  exists2 p, integral_part s w i v = Ok p & forall r,
    p r = fsum k (fun q => w * mono r i q * v q).
Proof.
move=> ki iN; rewrite /integral_part (segment_accessE wfs ki iN) /=; eexists; first by reflexivity.
move=> r; apply: eq_fsum => q _; congr (_ * _); rewrite /mulm /mono fsum_mull.
by apply: eq_fsum => c _; rewrite /get_block /trm add0n mulrA.
Qed.

Lemma part_value r G i x : curve_antiderivative s r G -> (k <= i.+1)%N -> (i + k < n)%N ->
  kn s i < kn s i.+1 -> kn s i <= x -> x <= kn s i.+1 ->
  fsum k (fun q => (kn s i.+1 - kn s i) * mono r i q *
     (((x - kn s i) / (kn s i.+1 - kn s i)) ^+ q.+1 / q.+1%:R)) = G x - G (kn s i).
Proof.
move=> HG ki iN pos x1 x2; have [P dP GP] := HG i ki iN.
rewrite !GP // ?ltW // (@deriv_same _ P (amono r i)) ?amono_deriv //.
rewrite /amono !fsumE !horner_sum -sumrB; apply: eq_bigr => q _.
rewrite !hornerZ !horner_exp /lin !hornerZ !hornerD !hornerN !hornerX !hornerC subrr mulr0.
rewrite expr0n mulr0 subr0 [in RHS](mulrC (_^-1)); by rewrite (mulrC _ (mono r i q)) -!mulrA [X in _ * (_ * X) = _]mulrC.
Qed.
End Piece.

Section Integral.
Variable F : realFieldType.
Variables (eps thr : F) (s : bspline F).
Hypothesis wfs : wf s.
Local Notation k := (bs_order s).
Local Notation n := (size (bs_knots s)).

Lemma evalIntegral_orderedE t1 t2 : 0 < eps -> eps <= last_len s -> 0 <= thr ->
  tmin s <= t1 -> t1 <= t2 -> t2 <= tmax s -> above_threshold thr s t1 -> above_threshold thr s t2 ->
  exists2 v, evalIntegral_ordered eps thr s t1 t2 = Ok v &
    forall r G, curve_antiderivative s r G -> v r = G t2 - G t1.
Proof.
move=> e0 el th0 h1 h12 h2 ab1 ab2; have hk := wf_order wfs.
have [i1 [seg1 pos1 a1 b1 [ki1 iN1 _]]] := valid_segment wfs e0 el h1 (le_trans h12 h2).
have [i2 [seg2 pos2 a2 b2 [ki2 iN2 c2]]] := valid_segment wfs e0 el (le_trans h1 h12) h2.
rewrite /evalIntegral_ordered (computeTIndexE wfs seg1) /= (computeTIndexE wfs seg2) /=.
have cond i x : (k <= i.+1)%N -> (i + k < n)%N -> kn s i <= x -> x <= kn s i.+1 ->
    above_threshold thr s x ->
    (thr < x - kn s i) && (thr < kn s i.+1 - kn s i) = (kn s i < x).
  move=> ki iN x1 x2 ab; have [lt|le] := ltP (kn s i) x.
    have q := ab i ki iN lt; rewrite q /=; apply: lt_le_trans q _; by rewrite ler_add2r.
  by rewrite [thr < _]ltNge (le_trans _ th0) ?subr_le0.
rewrite !cond //.
have i12 : (i1 <= i2)%N.
  rewrite leqNgt; apply/negP => lt21.
  have q : kn s i2.+1 <= kn s i1 by apply: (kn_mono wfs); [exact: lt21|move: iN1; clear; lia].
  case: c2 => [x2|e2]; last by move: lt21 iN1 e2; clear; lia.
  have := le_lt_trans (le_trans q a1) (le_lt_trans h12 x2); by rewrite ltxx.
(* first part *)
set I1 := (if _ then _ else _ : outcome (vec F)).
have [v1 -> H1] : exists2 v1, I1 = Ok v1 &
    forall r G, curve_antiderivative s r G -> v1 r = G (kn s i1) - G t1.
  rewrite /I1; case: ltP => q.
    have [p -> Hp] := @integral_partE _ _ wfs i1 (kn s i1.+1 - kn s i1)
       (fun i => ((t1 - kn s i1) / (kn s i1.+1 - kn s i1)) ^+ i.+1 / i.+1%:R) ki1 iN1.
    eexists; first by reflexivity.
    by move=> r G HG /=; rewrite Hp (part_value wfs HG) // opprB.
  exists zerov => // r G HG; have -> : t1 = kn s i1 by apply/eqP; rewrite eq_le q a1.
  by rewrite subrr.
rewrite /=.
have [v2 -> H2] : exists2 v2, oloop i1 i2 (fun j (I : vec F) =>
             need (j.+1 < size (bs_knots s))%N ;
             do p <- integral_part s (kn s j.+1 - kn s j) j (fun i => i.+1%:R^-1) ;
             Ok (fun r => I r + p r)) v1 = Ok v2 &
    forall r G, curve_antiderivative s r G -> v2 r = G (kn s i2) - G t1.
  have := @oloop_ind (vec F) i1 i2 (fun j (I : vec F) =>
             need (j.+1 < size (bs_knots s))%N ;
             do p <- integral_part s (kn s j.+1 - kn s j) j (fun i => i.+1%:R^-1) ;
             Ok (fun r => I r + p r)) v1
    (fun j v => forall r G, curve_antiderivative s r G -> v r = G (kn s j) - G t1) i12 H1.
  apply=> j I /andP[j1 j2] HI.
  have kj : (k <= j.+1)%N by move: ki1 j1; clear; lia.
  have jN : (j + k < n)%N by move: iN2 j2; clear; lia.
  have jS : (j.+1 < n)%N by move: hk jN; clear; lia.
  rewrite jS /=.
  have [p -> Hp] := @integral_partE _ _ wfs j (kn s j.+1 - kn s j) (fun i => i.+1%:R^-1) kj jN.
  eexists; first by reflexivity.
  move=> r G HG /=; rewrite (HI r G HG) Hp.
  have [pos|npos] := ltP (kn s j) (kn s j.+1).
    have := part_value wfs HG kj jN pos (ltW pos) (lexx _).
    rewrite divff ?subr_eq0 ?gt_eqF // => e.
    rewrite (eq_fsum (g := fun q => (kn s j.+1 - kn s j) * mono s r j q * (1 ^+ q.+1 / q.+1%:R))).
      by rewrite e; ring.
    by move=> q _; rewrite expr1n mul1r.
  have e : kn s j.+1 = kn s j.
    by apply/eqP; rewrite eq_le npos (kn_mono wfs).
  by rewrite e subrr fsum0 ?addr0 // => q _; rewrite !mul0r.
rewrite /=; case: ltP => q.
  have [p -> Hp] := @integral_partE _ _ wfs i2 (kn s i2.+1 - kn s i2)
     (fun i => ((t2 - kn s i2) / (kn s i2.+1 - kn s i2)) ^+ i.+1 / i.+1%:R) ki2 iN2.
  eexists; first by reflexivity.
  by move=> r G HG /=; rewrite Hp (part_value wfs HG) // (H2 r G HG); ring.
exists v2 => // r G HG; rewrite (H2 r G HG).
by have -> : t2 = kn s i2 by apply/eqP; rewrite eq_le q a2.
Qed.

Lemma evalIntegralE t1 t2 : 0 < eps -> eps <= last_len s -> 0 <= thr ->
  tmin s <= t1 <= tmax s -> tmin s <= t2 <= tmax s ->
  above_threshold thr s t1 -> above_threshold thr s t2 ->
  exists2 v, evalIntegral eps thr s t1 t2 = Ok v &
    forall r G, curve_antiderivative s r G -> v r = G t2 - G t1.
Proof.
move=> e0 el th0 /andP[a1 b1] /andP[a2 b2] ab1 ab2; rewrite /evalIntegral; case: ltP => lt.
  have [v -> Hv] := evalIntegral_orderedE e0 el th0 a2 (ltW lt) b1 ab2 ab1.
  rewrite /=; eexists; first by reflexivity.
  by move=> r G HG /=; rewrite (Hv r G HG) opprB.
exact: evalIntegral_orderedE.
Qed.

End Integral.

Section Acc.
Variable F : realFieldType.
Variable s : bspline F.
Hypothesis wfs : wf s.
Variable f : nat -> {poly F}.
Local Notation k := (bs_order s).
Local Notation n := (size (bs_knots s)).
(* Such a G exists: define it by accumulating the pieces. *)
Definition acc_const (i : nat) : F :=
  fsum i (fun j => (antip (f j)).[kn s j.+1] - (antip (f j)).[kn s j]).
Definition seg_index (x : F) : nat :=
  (find (fun i => x < kn s i.+1) (iota 0 (n - k).-1)).
Definition acc (x : F) : F :=
  let i := seg_index x in
  acc_const i + (antip (f i)).[x] - (antip (f i)).[kn s i].

Lemma acc_const_flat i j : (i <= j)%N -> (j < n)%N -> kn s i = kn s j ->
  acc_const i = acc_const j.
Proof.
elim: j => [|j IH] ij jn e; first by move: ij; rewrite leqn0 => /eqP ->.
move: ij; rewrite leq_eqVlt => /orP[/eqP -> //|ij].
have ej : kn s i = kn s j.
  by apply/eqP; rewrite eq_le {2}e !(kn_mono wfs) //; apply: ltn_trans jn.
by rewrite IH ?(ltn_trans _ jn) // /acc_const /= -e -ej subrr addr0.
Qed.

Lemma accE i x : (i + k < n)%N -> kn s i <= x -> x <= kn s i.+1 ->
  acc x = acc_const i + (antip (f i)).[x] -
    (antip (f i)).[kn s i].
Proof.
move=> iN x1 x2; have hk := wf_order wfs; rewrite /acc; set j := seg_index x.
have jb : (j <= (n - k).-1)%N.
  by rewrite /j /seg_index -[X in (_ <= X)%N](size_iota 0); exact: find_size.
have jn : (j.+1 < n)%N by move: jb hk iN; clear; lia.
case: (ltngtP i j) => [lt|gt|->] //.
  have before m : (m < j)%N -> kn s m.+1 <= x.
    move=> mj; have := before_find 0%N mj; rewrite nth_iota; last exact: leq_trans mj jb.
    by rewrite add0n => /negbT; rewrite -leNgt.
  have xe : x = kn s i.+1 by apply/eqP; rewrite eq_le x2 before.
  have je : kn s j = x.
    apply/eqP; rewrite eq_le {2}xe (kn_mono wfs) // ?(ltnW jn) // andbT.
    by case: (j) lt before => [//|m] _ b; apply: b.
  rewrite je addrK -(@acc_const_flat i.+1 j) // ?(ltnW jn) ?je //.
  by rewrite /acc_const /= -xe addrA.
have jl : (j < (n - k).-1)%N by move: gt iN; clear; lia.
have hf : has (fun m => x < kn s m.+1) (iota 0 (n - k).-1) by rewrite has_find size_iota.
have := nth_find 0%N hf; rewrite -/(seg_index x) -/j nth_iota // add0n => lt.
have : kn s j.+1 <= kn s i by apply: (kn_mono wfs) => //; move: hk iN; clear; lia.
by move=> /(lt_le_trans lt) /lt_le_trans /(_ x1); rewrite ltxx.
Qed.

Lemma antiderivative_exists : antiderivative_of s f acc.
Proof.
move=> i ki iN; exists (antip (f i) +
   (acc_const i - (antip (f i)).[kn s i])%:P).
  by rewrite derivD derivC addr0 antipK.
move=> x x1 x2; rewrite (accE iN x1 x2) hornerD hornerC; ring.
Qed.
End Acc.
