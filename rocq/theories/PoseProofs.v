(* Pose splines: inverse transformations, round trips, Jacobians. *)
From mathcomp Require Import all_ssreflect all_algebra.
From mathcomp.algebra_tactics Require Import ring.
From mathcomp.zify Require Import zify.
From Verif Require Import Prelude CoxDeBoor CoxDeBoorProofs BSplineModel BSplineSpec
  BSplineProofs BSplineEvalProofs BSplineAccessProofs BSplineCoefProofs BSplineInitProofs
  BSplineLocalProofs PoseModel PoseSpec DerivProofs.
Set Implicit Arguments.
Unset Strict Implicit.
Unset Printing Implicit Defensive.
Import GRing.Theory Num.Theory Order.Theory.
Local Open Scope ring_scope.

Section Ortho.
Variable F : realFieldType.

Lemma orthonormalC (C : mat F) : orthonormal C -> orthonormal (trm C).
Proof.
move=> h; pose M : 'M[F]_3 := \matrix_(i, j) C i j.
have e : M^T *m M = 1%:M.
  by apply/matrixP => i j; rewrite !mxE -h // fsumE; apply: eq_bigr => x _; rewrite !mxE.
have e' : M *m M^T = 1%:M by apply: mulmx1C.
move=> a b a3 b3; have := congr1 (fun A : 'M_3 => A (Ordinal a3) (Ordinal b3)) e'.
by rewrite !mxE fsumE => <-; apply: eq_bigr => x _; rewrite !mxE.
Qed.

Variable R : rotation F.
Local Notation cvt := (curveValueToTransformation R).

(* entries of a curve value's transformation and of its inverse *)
Lemma cvt_rot (c : vec F) r x : (r < 3)%N -> (x < 3)%N -> cvt c r x = rotM R (tail3 c) r x.
Proof. by move: r x => [|[|[|?]]] [|[|[|?]]]. Qed.
Lemma cvt_pos (c : vec F) r : (r < 3)%N -> cvt c r 3%N = c r.
Proof. by move: r => [|[|[|?]]]. Qed.
Lemma cvt_bot (c : vec F) x : (x < 4)%N -> cvt c 3%N x = (x == 3%N)%:R.
Proof. by move: x => [|[|[|[|?]]]]. Qed.

Lemma inv_rot (T : mat F) r x : (r < 3)%N -> (x < 3)%N -> invertInPlace T r x = T x r.
Proof. by move: r x => [|[|[|?]]] [|[|[|?]]]. Qed.
Lemma inv_pos (T : mat F) r : (r < 3)%N ->
  invertInPlace T r 3%N = - fsum 3 (fun x => T x r * T x 3%N).
Proof. by move: r => [|[|[|?]]]. Qed.
Lemma inv_bot (T : mat F) x : (x < 4)%N -> invertInPlace T 3%N x = T 3%N x.
Proof. by move: x => [|[|[|[|?]]]]. Qed.

Lemma mulm4 (A B : mat F) r c : mulm 4 A B r c = fsum 3 (fun x => A r x * B x c) + A r 3%N * B 3%N c.
Proof. by []. Qed.

Lemma lt4 r : (r < 4)%N -> (r < 3)%N \/ r = 3%N. Proof. lia. Qed.

Lemma inverse_both (c : vec F) : orthonormal (rotM R (tail3 c)) ->
  eqm 4 4 (mulm 4 (cvt c) (invertInPlace (cvt c))) eyem /\
  eqm 4 4 (mulm 4 (invertInPlace (cvt c)) (cvt c)) eyem.
Proof.
move=> o; have o' := orthonormalC o; set C := rotM R _ in o o'.
split=> r x /lt4[] hr /lt4[] hx; rewrite mulm4.
- rewrite inv_bot ?cvt_bot ?(ltn_trans hx) // (ltn_eqF hx) mulr0 addr0 -[RHS]o' //.
  by apply: eq_fsum => y y3; rewrite cvt_rot // inv_rot // cvt_rot.
- rewrite hx inv_bot // cvt_bot // eqxx mulr1 cvt_pos //.
  rewrite (eq_fsum (g := fun y => - fsum 3 (fun z => C z y * C r y * c z))); last first.
    move=> y y3; rewrite cvt_rot // inv_pos // mulrN fsum_mull; congr (- _).
    by apply: eq_fsum => z z3; rewrite cvt_rot // cvt_pos // -/C; ring.
  rewrite fsumN exchange_fsum (eq_fsum (g := fun z => (z == r)%:R * c z)); last first.
    by move=> z z3; rewrite -o' // -fsum_mulr.
  by rewrite fsum_delta // addNr /eyem (ltn_eqF hr).
- rewrite hr cvt_bot // eqxx mul1r inv_bot ?(ltn_trans hx) // cvt_bot ?(ltn_trans hx) // (ltn_eqF hx) addr0.
  rewrite fsum0 /eyem ?(gtn_eqF hx) // => y y3; by rewrite cvt_bot ?(ltn_trans y3) // (ltn_eqF y3) mul0r.
- rewrite hr hx !(cvt_bot, inv_bot) // eqxx mulr1 fsum0 ?add0r // => y y3.
  by rewrite cvt_bot ?(ltn_trans y3) // (ltn_eqF y3) mul0r.
- rewrite cvt_bot ?(ltn_trans hx) // (ltn_eqF hx) mulr0 addr0 -[RHS]o //.
  by apply: eq_fsum => y y3; rewrite inv_rot // !cvt_rot.
- rewrite hx cvt_bot // eqxx mulr1 inv_pos // /eyem (ltn_eqF hr).
  by apply/eqP; rewrite subr_eq0; apply/eqP/eq_fsum => y y3; rewrite inv_rot.
- rewrite hr cvt_bot ?(ltn_trans hx) // (ltn_eqF hx) mulr0 addr0 /eyem (gtn_eqF hx) fsum0 //.
  by move=> y y3; rewrite inv_bot ?(ltn_trans y3) // cvt_bot ?(ltn_trans y3) // (ltn_eqF y3) mul0r.
rewrite hr hx !(cvt_bot, inv_bot) // eqxx mulr1 fsum0 ?add0r // => y y3.
by rewrite inv_bot ?(ltn_trans y3) // cvt_bot ?(ltn_trans y3) // (ltn_eqF y3) mul0r.
Qed.

(* round trips *)
Lemma cv_roundtrip (c : vec F) :
  (forall M, eqm 3 3 M (rotM R (tail3 c)) -> eqv 3 (rotP R M) (tail3 c)) ->
  eqv 6 (transformationToCurveValue R (cvt c)) c.
Proof.
move=> h r r6; rewrite /transformationToCurveValue /set_segment.
have [r3|r3] := ltnP r 3.
  by rewrite /= subn0 cvt_pos.
rewrite (_ : (r < 3 + 3)%N) //= h; first by rewrite /tail3 /get_segment subnKC.
  by move=> a b a3 b3; exact: cvt_rot.
by move: r3 r6; clear; lia.
Qed.

Lemma tf_roundtrip (T : mat F) :
  (forall p, eqv 3 p (rotP R T) -> eqm 3 3 (rotM R p) T) ->
  (forall c, (c < 4)%N -> T 3%N c = (c == 3%N)%:R) ->
  eqm 4 4 (cvt (transformationToCurveValue R T)) T.
Proof.
move=> h bot r c /lt4[] hr; last by rewrite hr => c4; rewrite cvt_bot // bot.
case/lt4 => hc; last by rewrite hc cvt_pos // /transformationToCurveValue /set_segment
  (leqNgt 3) hr subn0.
rewrite cvt_rot // h // => a a3.
by rewrite /tail3 /get_segment /transformationToCurveValue /set_segment leq_addr addKn
  ltn_add2l a3.
Qed.

Variable eps : F.
Lemma transformation_inverse s t T : rot_orthonormal R ->
  transformation R eps s t = Ok T ->
  exists2 Ti, inverseTransformation R eps s t = Ok Ti &
    eqm 4 4 (mulm 4 T Ti) eyem /\ eqm 4 4 (mulm 4 Ti T) eyem.
Proof.
move=> o; rewrite /transformation /inverseTransformation.
case: (evalD6 eps s t 0) => [c|//|//] /= [<-].
by eexists; [reflexivity|exact: inverse_both].
Qed.
End Ortho.

Section Proper.
Variable F : realFieldType.

Definition nx (r : nat) : nat := match r with 0 => 1 | 1 => 2 | _ => 0 end%N.
Definition pv (r : nat) : nat := match r with 0 => 2 | 1 => 0 | _ => 1 end%N.
Definition minor (C : mat F) (r c : nat) : F :=
  C (nx r) (nx c) * C (pv r) (pv c) - C (nx r) (pv c) * C (pv r) (nx c).

(* the entries of a rotation matrix are its own cofactors *)
Lemma cofactors (C : mat F) : orthonormal C -> right_handed C ->
  forall r c, (r < 3)%N -> (c < 3)%N -> C r c = minor C r c.
Proof.
move=> o rh.
have det1 : fsum 3 (fun x => minor C x 2 * C x 2%N) = 1.
  rewrite -[RHS](o 2%N 2%N) //; apply: eq_fsum => i i3; congr (_ * _).
  by rewrite -rh //; case: i i3 => [|[|[|i]]] // _; rewrite /minor /cross /=; ring.
have det j l : (j < 3)%N -> (l < 3)%N -> fsum 3 (fun i => minor C i j * C i l) = (j == l)%:R.
  move: det1; rewrite /minor /= !add0r => det1.
  case: j l => [|[|[|j]]] [|[|[|l]]] // _ _; rewrite /= -?det1; ring.
have o' := orthonormalC o.
move=> r c r3 c3; symmetry.
rewrite -[LHS](fsum_delta (fun i => minor C i c) r3).
rewrite (eq_fsum (g := fun i => fsum 3 (fun l => minor C i c * C i l * C r l))); last first.
  move=> i i3; rewrite -o' // mulrC fsum_mull; apply: eq_fsum => l l3; rewrite /trm; ring.
rewrite exchange_fsum (eq_fsum (g := fun l => (l == c)%:R * C r l)); last first.
  by move=> l l3; rewrite -fsum_mulr det // eq_sym.
by rewrite fsum_delta.
Qed.

(* C^T (a x b) = (C^T a) x (C^T b) *)
Lemma cross_rot (C : mat F) a b r : orthonormal C -> right_handed C -> (r < 3)%N ->
  cross (mulv 3 (trm C) a) (mulv 3 (trm C) b) r = mulv 3 (trm C) (cross a b) r.
Proof.
move=> o rh r3; have co := cofactors o rh; rewrite [RHS]/mulv /trm.
rewrite (eq_fsum (g := fun i => minor C i r * cross a b i)); last first.
  by move=> i i3; rewrite -co.
by case: r r3 => [|[|[|r]]] // _; rewrite /minor /cross /mulv /trm /=; ring.
Qed.

Lemma turned_trm phi (C : mat F) r c : orthonormal C -> right_handed C ->
  (r < 3)%N -> (c < 3)%N ->
  turned (mulv 3 (oppm (trm C)) phi) (trm C) r c = turned phi C c r.
Proof.
move=> o rh r3 c3; rewrite /turned.
have := @cross_rot C phi (fun i => (i == c)%:R) r o rh r3.
have e i : (i < 3)%N -> mulv 3 (trm C) (fun i => (i == c)%:R) i = trm C i c.
  move=> i3; rewrite /mulv (eq_fsum (g := fun j => (j == c)%:R * trm C i j)) ?fsum_delta //.
  by move=> j _; rewrite mulrC.
have -> : cross (mulv 3 (trm C) phi) (mulv 3 (trm C) (fun i => (i == c)%:R)) r
  = cross (mulv 3 (trm C) phi) (fun i => trm C i c) r.
  by case: r r3 => [|[|[|r]]] // _; rewrite /cross !e.
have -> : cross (mulv 3 (oppm (trm C)) phi) (fun x => trm C x c) r
  = - cross (mulv 3 (trm C) phi) (fun i => trm C i c) r.
  have n i : mulv 3 (oppm (trm C)) phi i = - mulv 3 (trm C) phi i.
    by rewrite -fsumN; apply: eq_fsum => j _; rewrite mulNr.
  by case: r r3 => [|[|[|r]]] // _; rewrite /cross !n; ring.
move=> ->; rewrite opprK.
by case: c c3 {e} => [|[|[|c]]] // _; case: r r3 => [|[|[|r]]] // _;
   rewrite /mulv /cross /trm /=; ring.
Qed.
End Proper.

Section Jac.
Variable F : realFieldType.
Variable eps : F.
Variable s : bspline F.
Hypothesis wfs : wf s.
Hypothesis dim6 : bs_dim s = 6%N.
Variable x : F.
Hypothesis e0 : 0 < eps.
Hypothesis x1 : tmin s <= x.
Hypothesis x2 : x < tmax s + eps.
Local Notation k := (bs_order s).

Definition valD (s' : bspline F) d : vec F :=
  if evalD6 eps s' x d is Ok v then v else zerov.

Lemma dir_mulm n (A J : mat F) idx dC r :
  dir s (mulm n A J) idx dC r = fsum n (fun y => A r y * dir s J idx dC y).
Proof.
rewrite /dir /mulm (eq_fsum (g := fun q => fsum n (fun y => A r y * (J y q *
  coefficientVector (with_coef s dC) (nth 0%N idx q))))); last first.
  by move=> q _; rewrite fsum_mulr; apply: eq_fsum => y _; rewrite mulrA.
by rewrite exchange_fsum; apply: eq_fsum => y _; rewrite fsum_mull.
Qed.

Lemma dir_addm (A B : mat F) idx dC r :
  dir s (addm A B) idx dC r = dir s A idx dC r + dir s B idx dC r.
Proof. by rewrite /dir -fsumD; apply: eq_fsum => q _; rewrite /addm mulrDl. Qed.

Lemma dir_ext (A B : mat F) idx dC r :
  (forall q, (q < size idx)%N -> A r q = B r q) -> dir s A idx dC r = dir s B idx dC r.
Proof. by move=> h; apply: eq_fsum => q qs; rewrite h. Qed.

Lemma pose_local : exists (P : nat -> vec F) (dP : mat F -> nat -> vec F) (idx : seq nat),
  [/\ localCoefficientVectorIndices eps s x = Ok idx,
      size idx = (k * 6)%N,
      forall dC h d, evalD6 eps (moved s dC h) x d = Ok (valD (moved s dC h) d) /\
        forall r, valD (moved s dC h) d r = P d r + h * dP dC d r,
      forall d, evalD6 eps s x d = Ok (valD s d) /\ forall r, valD s d r = P d r
    & forall d, exists v J, [/\ evalJ6 eps s x d = Ok (v, J, idx), forall r, v r = P d r
        & forall dC r, (r < 6)%N -> dir s J idx dC r = dP dC d r]].
Proof.
have [b [w [bk _ hidx H]]] := local_form wfs e0 x1 x2.
exists (fun d r => fsum k (fun j => bs_coef s r (b + j)%N * w d j)).
exists (fun dC d r => fsum k (fun j => dC r (b + j)%N * w d j)).
exists (iota (b * 6) (k * 6)); rewrite -dim6; split=> //.
- by rewrite size_iota.
- move=> dC h d; have [v [v' [J [h1 h2 _ _ _]]]] := H (fun r j => bs_coef s r j + h * dC r j) d.
  have e : evalD6 eps (moved s dC h) x d = Ok v.
    by rewrite /evalD6 h1 /= (_ : bs_dim (moved s dC h) = 6%N).
  rewrite /valD e; split=> // r; rewrite h2 fsum_mull -fsumD.
  by apply: eq_fsum => j jk; ring.
- move=> d; have [v [v' [J [h1 h2 _ _ _]]]] := H (bs_coef s) d.
  rewrite with_coef_id in h1.
  have e : evalD6 eps s x d = Ok v by rewrite /evalD6 h1 /= dim6.
  by rewrite /valD e; split.
move=> d; have [v [v' [J [_ _ h1 h2 h3]]]] := H (bs_coef s) d.
rewrite with_coef_id in h1; exists v', J; split=> //.
  by rewrite /evalJ6 h1 /= dim6.
move=> dC r r6; rewrite /dir size_iota.
rewrite -[LHS]/(mulv (k * bs_dim s) J (fun q => coefficientVector (with_coef s dC)
   (nth 0%N (iota (b * bs_dim s) (k * bs_dim s)) q)) r).
rewrite (@diag_blocks_mulv _ (bs_dim s) k (w d)) //; last by move=> c ck; apply: h3.
apply: eq_fsum => j jk; congr (_ * _).
have jD : (j * bs_dim s + r < k * bs_dim s)%N.
  apply: (@leq_trans (j.+1 * bs_dim s)); first by rewrite mulSnr ltn_add2l.
  by rewrite leq_mul2r jk orbT.
rewrite nth_iota // addnA -mulnDl -[X in (_ * X + _)%N]/(bs_dim (with_coef s dC)).
rewrite coefficientVectorE //=.
rewrite -/(bs_ncoef (with_coef s dC)) /with_coef /bs_ncoef /= -/(bs_ncoef s).
by move: bk jk; clear; lia.
Qed.


Variable R : rotation F.
Hypothesis Rx : rot_ext R.

Lemma turned_ext phi phi' (C C' : mat F) r c : eqv 3 phi phi' -> eqm 3 3 C C' ->
  (r < 3)%N -> (c < 3)%N -> turned phi C r c = turned phi' C' r c.
Proof.
move=> hp hC r3 c3; rewrite /turned /cross.
by case: r r3 => [|[|[|r]]] // _; rewrite !hp // !hC.
Qed.

Lemma JO_mul (S : mat F) (v : vec F) r : (r < 3)%N ->
  fsum 6 (fun y => JO_of S r y * v y) = mulv 3 S (tail3 v) r.
Proof.
move=> r3; rewrite -[6%N]/(3 + 3)%N fsum_cat fsum0 ?add0r; last first.
  by case=> [|[|[|i]]] // _; rewrite /JO_of /set_block /= ?andbF /= mul0r.
apply: eq_fsum => i i3; rewrite /JO_of /set_block leq0n add0n r3 leq_addr ltn_add2l i3 subn0 /=.
by rewrite /tail3 /get_segment addKn.
Qed.

Lemma mulv_ext n (A B : mat F) v w r : (r < n)%N -> eqm n n A B -> eqv n v w ->
  mulv n A v r = mulv n B w r.
Proof. by move=> rn hA hv; apply: eq_fsum => i i3; rewrite hA // hv. Qed.

(* The quantities every Jacobian below is made of. *)
Section Moved.
Hypothesis Rd : rot_deriv R.
Variables (P : nat -> vec F) (dP : mat F -> nat -> vec F).
Hypothesis H1 : forall dC h d, evalD6 eps (moved s dC h) x d = Ok (valD (moved s dC h) d) /\
        forall r, valD (moved s dC h) d r = P d r + h * dP dC d r.
Definition Cof := rotM R (tail3 (P 0)).
Definition Sof := rotS R (tail3 (P 0)).
Definition phi dC := mulv 3 Sof (tail3 (dP dC 0)).

Lemma moved_P dC d r : deriv_at (fun h => valD (moved s dC h) d r) 0 (dP dC d r).
Proof.
apply: deriv_ext (deriv_affine (P d r) (dP dC d r) 0) => // h.
by have [_ e] := H1 dC h d; rewrite e.
Qed.

Lemma moved_P0 dC d r : valD (moved s dC 0) d r = P d r.
Proof. by have [_ e] := H1 dC 0 d; rewrite e mul0r addr0. Qed.

Lemma moved_C dC r c : (r < 3)%N -> (c < 3)%N ->
  deriv_at (fun h => rotM R (tail3 (valD (moved s dC h) 0)) r c) 0 (turned (phi dC) Cof r c).
Proof.
move=> r3 c3.
have hc : curve_deriv (fun h => tail3 (valD (moved s dC h) 0)) 0 (tail3 (dP dC 0)).
  by move=> i i3; exact: moved_P.
apply: deriv_ext (Rd hc r3 c3) => //.
have e0' : eqv 3 (tail3 (valD (moved s dC 0) 0)) (tail3 (P 0)).
  by move=> i i3; rewrite /tail3 /get_segment moved_P0.
apply: turned_ext => // [i i3|]; last exact: rotM_ext.
by apply: mulv_ext => //; apply: rotS_ext.
Qed.

Lemma moved_C0 dC : eqm 3 3 (rotM R (tail3 (valD (moved s dC 0) 0))) Cof.
Proof. by apply: rotM_ext => // i i3; rewrite /tail3 /get_segment moved_P0. Qed.
End Moved.

Theorem orientation_jac : rot_deriv R -> exists C C' J idx,
  [/\ orientationAndJacobian R eps s x = Ok (C, J, idx), orientation R eps s x = Ok C',
      eqm 3 3 C C', localCoefficientVectorIndices eps s x = Ok idx
    & rot_jacobian_of (fun s' => orientation R eps s' x) s J idx].
Proof.
move=> Rd; have [P [dP [idx [hidx sz H1 H2 H3]]]] := pose_local.
have [p [JS [hJ hp hd]]] := H3 0%N; have [hv hvP] := H2 0%N.
have ep : eqv 3 (tail3 p) (tail3 (P 0%N)) by move=> i _; exact: hp.
rewrite /orientationAndJacobian /orientation hJ hv /=; do 4 eexists; split; try reflexivity.
- apply: rotM_ext => // i i3; by rewrite /tail3 /get_segment hp hvP.
- by [].
move=> dC; exists (fun h => rotM R (tail3 (valD (moved s dC h) 0))).
  by move=> h; have [e _] := H1 dC h 0%N; rewrite e.
move=> r c r3 c3; apply: deriv_ext (moved_C Rd H1 dC r3 c3) => //.
apply: turned_ext => // [i i3|a b a3 b3]; last by rewrite (moved_C0 H1).
rewrite dir_mulm JO_mul //; apply: mulv_ext => // [a b a3 b3|a a3].
  by symmetry; apply: rotS_ext.
by rewrite /tail3 /get_segment hd.
Qed.
Lemma moved_trC dC P dP r c : rot_deriv R -> rot_proper R ->
  (forall dC h d, evalD6 eps (moved s dC h) x d = Ok (valD (moved s dC h) d) /\
        forall r, valD (moved s dC h) d r = P d r + h * dP dC d r) ->
  (r < 3)%N -> (c < 3)%N ->
  deriv_at (fun h => rotM R (tail3 (valD (moved s dC h) 0)) c r) 0
    (turned (mulv 3 (oppm (trm (Cof P))) (phi P dP dC)) (trm (Cof P)) r c).
Proof.
move=> Rd Rp H1 r3 c3; have [o rh] := Rp (tail3 (P 0%N)).
by apply: deriv_ext (moved_C Rd H1 dC c3 r3) => //; rewrite turned_trm.
Qed.

Lemma dir_JO P dP JS idx p dC y :
  (forall r, p r = P 0%N r) -> (y < 3)%N ->
  (forall dC r, (r < 6)%N -> dir s JS idx dC r = dP dC 0%N r) ->
  dir s (mulm 6 (JO_of (rotS R (tail3 p))) JS) idx dC y = phi P dP dC y.
Proof.
move=> hp y3 hd; rewrite dir_mulm JO_mul //; apply: mulv_ext => // [a b a3 b3|a a3].
  by apply: rotS_ext => // i _; exact: hp.
by rewrite /tail3 /get_segment hd.
Qed.

Lemma mulm_assoc n m (A B C : mat F) r c :
  mulm m (mulm n A B) C r c = mulm n A (mulm m B C) r c.
Proof.
rewrite /mulm (eq_fsum (g := fun y => fsum n (fun z => A r z * (B z y * C y c)))); last first.
  by move=> y _; rewrite fsum_mulr; apply: eq_fsum => z _; rewrite mulrA.
by rewrite exchange_fsum; apply: eq_fsum => y _; rewrite fsum_mull.
Qed.

Theorem inverse_orientation_jac : rot_deriv R -> rot_proper R -> exists C C' J idx,
  [/\ inverseOrientationAndJacobian R eps s x = Ok (C, J, idx),
      inverseOrientation R eps s x = Ok C',
      eqm 3 3 C C', localCoefficientVectorIndices eps s x = Ok idx
    & rot_jacobian_of (fun s' => inverseOrientation R eps s' x) s J idx].
Proof.
move=> Rd Rp; have [P [dP [idx [hidx sz H1 H2 H3]]]] := pose_local.
have [p [JS [hJ hp hd]]] := H3 0%N; have [hv hvP] := H2 0%N.
rewrite /inverseOrientationAndJacobian /inverseOrientation hJ hv /=.
do 4 eexists; split; try reflexivity.
- by move=> a b a3 b3; apply: rotM_ext => // i i3; rewrite /tail3 /get_segment hp hvP.
- by [].
move=> dC; exists (fun h => trm (rotM R (tail3 (valD (moved s dC h) 0)))).
  by move=> h; have [e _] := H1 dC h 0%N; rewrite e.
move=> r c r3 c3; apply: deriv_ext (moved_trC dC Rd Rp H1 r3 c3) => //.
apply: turned_ext => // [i i3|a b a3 b3]; last by rewrite /trm (moved_C0 H1).
rewrite (dir_ext (B := mulm 3 (oppm (trm (rotM R (tail3 p)))) (mulm 6 (JO_of (rotS R (tail3 p))) JS)));
  last by move=> q _; exact: mulm_assoc.
rewrite dir_mulm; apply: eq_fsum => y y3; rewrite (dir_JO dC hp y3 hd) //; congr (- _ * _).
by apply: rotM_ext => // j _; rewrite /tail3 /get_segment hp.
Qed.

(* body-frame velocity and acceleration: the derivative along a direction *)
Theorem body_frame_deriv d : rot_deriv R -> exists P dP idx,
  [/\ localCoefficientVectorIndices eps s x = Ok idx,
      forall d, exists v J, [/\ evalJ6 eps s x d = Ok (v, J, idx), forall r, v r = P d r
        & forall dC r, (r < 6)%N -> dir s J idx dC r = dP dC d r]
    & forall dC, exists2 vf : F -> vec F,
        (forall h, linearBodyFrame R eps (moved s dC h) x d = Ok (vf h)) &
        forall r, (r < 3)%N -> deriv_at (fun h => vf h r) 0
          (mulv 3 (trm (Cof P)) (fun y => cross (phi P dP dC) (P d) y + dP dC d y) r)].
Proof.
move=> Rd; have [P [dP [idx [hidx sz H1 H2 H3]]]] := pose_local.
exists P, dP, idx; split=> // dC.
exists (fun h => mulv 3 (trm (rotM R (tail3 (valD (moved s dC h) 0)))) (head3 (valD (moved s dC h) d))).
  move=> h; rewrite /linearBodyFrame; have [-> _] := H1 dC h 0%N => /=.
  by have [-> _] := H1 dC h d.
move=> r r3.
have := deriv_sum (n := 3) (fun y y3 => deriv_mul (moved_C Rd H1 dC y3 r3) (moved_P H1 dC d y)).
apply: deriv_ext => //.
rewrite (eq_fsum (g := fun y => turned (phi P dP dC) (Cof P) y r * P d y + Cof P y r * dP dC d y));
  last by move=> y y3; rewrite (moved_P0 H1) (moved_C0 H1).
by rewrite /mulv /trm /turned /cross /=; ring.
Qed.
Lemma dirN (A : mat F) idx dC r : dir s (oppm A) idx dC r = - dir s A idx dC r.
Proof. by rewrite /dir -fsumN; apply: eq_fsum => q _; rewrite mulNr. Qed.

(* the angular velocity and angular acceleration functions share one Jacobian formula *)
Theorem angular_body_jac d : rot_deriv R -> rot_proper R -> rot_av R -> exists v v' J idx,
  [/\ angularBodyFrameAndJacobian R eps s x d = Ok (v, J, idx),
      angularBodyFrame R eps s x d = Ok v',
      eqv 3 v v', localCoefficientVectorIndices eps s x = Ok idx
    & jacobian_of 3 (fun s' => angularBodyFrame R eps s' x d) s J idx].
Proof.
move=> Rd Rp Ra; have [P [dP [idx [hidx sz H1 H2 H3]]]] := pose_local.
have [p [JS [hJ hp hd]]] := H3 0%N; have [hv hvP] := H2 0%N.
have [p' [JS' [hJ' hp' hd']]] := H3 d; have [hv' hvP'] := H2 d.
rewrite /angularBodyFrameAndJacobian /angularBodyFrame /inverseOrientationAndJacobian
  hJ hv /= hJ' hv' /=.
have ep : eqv 3 (tail3 p) (tail3 (P 0%N)) by move=> i _; exact: hp.
have ep' : eqv 3 (tail3 p') (tail3 (P d)) by move=> i _; exact: hp'.
have [av1 av2] := rotAV_ext Rx ep ep'.
case eAV: (rotAV R (tail3 p) (tail3 p')) av1 av2 => [av Jo] /= av1 av2.
have [a1 a2] := Ra.
set C := Cof P; set S := Sof P; set q := tail3 (P d).
have avE i : (i < 3)%N -> av i = mulv 3 S q i by move=> i3; rewrite av1 // a1.
have CE a b : (a < 3)%N -> (b < 3)%N -> rotM R (tail3 p) a b = C a b.
  by move=> a3 b3; apply: rotM_ext.
have valE (Cv Sv : mat F) (w : vec F) r : (r < 3)%N -> eqm 3 3 Cv C -> eqm 3 3 Sv S -> eqv 3 w q ->
   mulv 3 (mulm 3 (oppm (trm Cv)) Sv) w r = mulv 3 (oppm (trm C)) (mulv 3 S q) r.
  move=> r3 h1 h2 h3; rewrite /mulv /mulm /oppm /trm /= !h1 // !h2 // !h3 //; ring.
do 4 eexists; split; try reflexivity; try by [].
  move=> r r3; rewrite valE //.
  - by apply: eq_fsum => y y3; rewrite /oppm /trm CE // avE.
  - by apply: rotM_ext => // i _; rewrite /tail3 /get_segment hvP.
  - by apply: rotS_ext => // i _; rewrite /tail3 /get_segment hvP.
  by move=> i _; rewrite /q /tail3 /get_segment hvP'.
move=> dC.
exists (fun h => mulv 3 (mulm 3 (oppm (trm (rotM R (tail3 (valD (moved s dC h) 0)))))
          (rotS R (tail3 (valD (moved s dC h) 0)))) (tail3 (valD (moved s dC h) d))).
  move=> h; have [-> _] := H1 dC h 0%N => /=.
  by have [-> _] := H1 dC h d.
move=> r r3.
have dav y : (y < 3)%N -> deriv_at (fun h => mulv 3 (rotS R (tail3 (valD (moved s dC h) 0)))
     (tail3 (valD (moved s dC h) d)) y) 0
     (fsum 6 (fun z => Jo y z * dir s (stackJ s JS JS') idx dC z)).
  move=> y3.
  have hc e : curve_deriv (fun h => tail3 (valD (moved s dC h) e)) 0 (tail3 (dP dC e)).
    by move=> i i3; exact: (moved_P H1).
  have he e : eqv 3 (tail3 (valD (moved s dC 0) e)) (tail3 (P e)).
    by move=> i _; rewrite /tail3 /get_segment (moved_P0 H1).
  have [_ aE] := rotAV_ext Rx (he 0%N) (he d).
  apply: deriv_ext (a2 _ _ _ _ _ (hc 0%N) (hc d) y y3) => //.
  rewrite -[6%N]/(3 + 3)%N fsum_cat; congr (_ + _); apply: eq_fsum => z z3.
    rewrite aE // -?av2 //; try by move: z3; clear; lia.
    congr (_ * _); rewrite (dir_ext (B := get_block JS 3 0)).
      by rewrite /tail3 /get_segment -hd; [|by move: z3; clear; lia]; rewrite /dir /get_block.
    move=> j js; rewrite /stackJ /set_block leq0n add0n z3 leq0n add0n /=.
    by rewrite /jcols dim6 -sz js !subn0.
  rewrite aE // -av2 //.
  congr (_ * _); rewrite /tail3 /get_segment -hd'; [|by move: z3; clear; lia]; apply: dir_ext => j js.
  by rewrite /stackJ /set_block leq0n add0n ltnNge leq_addr.
have := deriv_sum (n := 3) (fun y y3 => deriv_opp (deriv_mul (moved_C Rd H1 dC y3 r3) (dav y y3))).
apply: deriv_ext.
  by move=> h; rewrite /mulv /mulm /oppm /trm /=; ring.
rewrite dir_addm !dir_mulm.
rewrite [X in _ = X + _](eq_fsum (g := fun z => fsum 3 (fun y => - C y r * (Jo y z *
    dir s (stackJ s JS JS') idx dC z)))); last first.
  move=> z z6; rewrite /mulm fsum_mulr; apply: eq_fsum => y y3.
  by rewrite /oppm /trm CE // mulrA.
rewrite exchange_fsum.
rewrite [LHS](eq_fsum (g := fun y => - (turned (phi P dP dC) C y r * mulv 3 S q y) +
    - C y r * fsum 6 (fun z => Jo y z * dir s (stackJ s JS JS') idx dC z))); last first.
  move=> y y3; cbv beta; rewrite (moved_C0 H1) // opprD mulNr; congr (- (_ * _) - _).
  apply: mulv_ext => // [a b a3 b3|a a3]; last by rewrite /tail3 /get_segment (moved_P0 H1).
  by apply: rotS_ext => // i _; rewrite /tail3 /get_segment (moved_P0 H1).
rewrite fsumD addrC; congr (_ + _).
  by apply: eq_fsum => y _; rewrite fsum_mull.
have [o rh] := Rp (tail3 (P 0%N)).
(* - C^T (phi x av) = omega x (- C^T phi) *)
set omega := mulv 3 _ av.
have om i : (i < 3)%N -> omega i = - mulv 3 (trm C) (mulv 3 S q) i.
  move=> i3; rewrite -fsumN; apply: eq_fsum => y y3; by rewrite /oppm /trm CE // avE // mulNr.
have jr i : (i < 3)%N ->
  dir s (mulm 6 (mulm 3 (oppm (trm (rotM R (tail3 p)))) (JO_of (rotS R (tail3 p)))) JS) idx dC i
  = - mulv 3 (trm C) (phi P dP dC) i.
  move=> i3; rewrite (dir_ext (B := mulm 3 (oppm (trm (rotM R (tail3 p)))) (mulm 6 (JO_of (rotS R (tail3 p))) JS)));
    last by move=> j _; exact: mulm_assoc.
  rewrite dir_mulm -fsumN; apply: eq_fsum => y y3.
  by rewrite (dir_JO dC hp y3 hd) /oppm /trm CE // mulNr.
have := @cross_rot _ C (phi P dP dC) (mulv 3 S q) r o rh r3.
set u := mulv 3 (trm C) (phi P dP dC) in jr *; set w := mulv 3 (trm C) (mulv 3 S q) in om *.
move=> cr; transitivity (- cross u w r).
  rewrite cr /mulv /trm /turned /cross /=.
  case: r r3 {cr} => [|[|[|r]]] // _; ring.
by case: r r3 {cr} => [|[|[|r]]] // _; rewrite /crossMx /cross /= !jr // !om //; ring.
Qed.

Theorem angular_jac d : rot_av R -> exists v v' J idx,
  [/\ angularAndJacobian R eps s x d = Ok (v, J, idx), S_theta R eps d s x = Ok v',
      eqv 3 v v', localCoefficientVectorIndices eps s x = Ok idx
    & jacobian_of 3 (fun s' => S_theta R eps d s' x) s J idx].
Proof.
move=> Ra; have [P [dP [idx [hidx sz H1 H2 H3]]]] := pose_local.
have [p [JS [hJ hp hd]]] := H3 0%N; have [hv hvP] := H2 0%N.
have [p' [JS' [hJ' hp' hd']]] := H3 d; have [hv' hvP'] := H2 d.
rewrite /angularAndJacobian /S_theta hJ hv /= hJ' hv' /=.
have ep : eqv 3 (tail3 p) (tail3 (P 0%N)) by move=> i _; exact: hp.
have ep' : eqv 3 (tail3 p') (tail3 (P d)) by move=> i _; exact: hp'.
have [av1 av2] := rotAV_ext Rx ep ep'.
case eAV: (rotAV R (tail3 p) (tail3 p')) av1 av2 => [av Jo] /= av1 av2.
have [a1 a2] := Ra.
do 4 eexists; split; try reflexivity; try by [].
  move=> r r3; rewrite av1 // a1 //; apply: mulv_ext => // [a b a3 b3|a a3].
    by apply: rotS_ext => // i _; rewrite /tail3 /get_segment hvP.
  by rewrite /tail3 /get_segment hvP'.
move=> dC.
exists (fun h => mulv 3 (rotS R (tail3 (valD (moved s dC h) 0))) (tail3 (valD (moved s dC h) d))).
  move=> h; have [-> _] := H1 dC h 0%N => /=.
  by have [-> _] := H1 dC h d.
move=> y y3.
have hc e : curve_deriv (fun h => tail3 (valD (moved s dC h) e)) 0 (tail3 (dP dC e)).
  by move=> i i3; exact: (moved_P H1).
have he e : eqv 3 (tail3 (valD (moved s dC 0) e)) (tail3 (P e)).
  by move=> i _; rewrite /tail3 /get_segment (moved_P0 H1).
have [_ aE] := rotAV_ext Rx (he 0%N) (he d).
apply: deriv_ext (a2 _ _ _ _ _ (hc 0%N) (hc d) y y3) => //.
rewrite dir_mulm.
rewrite -[6%N]/(3 + 3)%N fsum_cat; congr (_ + _); apply: eq_fsum => z z3.
  rewrite aE // -?av2 //; try by move: z3; clear; lia.
  congr (_ * _); rewrite (dir_ext (B := get_block JS 3 0)).
    by rewrite /tail3 /get_segment -hd; [|by move: z3; clear; lia]; rewrite /dir /get_block.
  move=> j js; rewrite /stackJ /set_block leq0n add0n z3 leq0n add0n /=.
  by rewrite /jcols dim6 -sz js !subn0.
rewrite aE // -av2 //.
congr (_ * _); rewrite /tail3 /get_segment -hd'; [|by move: z3; clear; lia]; apply: dir_ext => j js.
by rewrite /stackJ /set_block leq0n add0n ltnNge leq_addr.
Qed.

Lemma dir_lin3 (A : mat F) (B : nat -> mat F) idx dC r n :
  (forall q, A r q = fsum n (fun y => B y r q)) ->
  dir s A idx dC r = fsum n (fun y => dir s (B y) idx dC r).
Proof.
move=> h; rewrite /dir exchange_fsum; apply: eq_fsum => q _; by rewrite h fsum_mulr.
Qed.

Theorem body_frame_jac d : rot_deriv R -> exists v0 J0 v1 J1 idx,
  [/\ evalJ6 eps s x 0 = Ok (v0, J0, idx), evalJ6 eps s x d = Ok (v1, J1, idx) &
      jacobian_of 3 (fun s' => linearBodyFrame R eps s' x d) s
        (body_frame_J (rotM R (tail3 v0)) (rotS R (tail3 v0)) v1 J0 J1) idx].
Proof.
move=> Rd; have [P [dP [idx [_ H H4]]]] := body_frame_deriv d Rd.
have [p [JS [hJ hp hd]]] := H 0%N; have [p' [JS' [hJ' hp' hd']]] := H d.
exists p, JS, p', JS', idx; split=> // dC.
have [vf hvf dvf] := H4 dC; exists vf => // r r3.
apply: deriv_ext (dvf r r3) => //.
pose B : mat F := fun y q => JS' y q
  - cross p' (fun z => fsum 3 (fun w => rotS R (tail3 p) z w * JS (3 + w)%N q)) y.
have -> : dir s (body_frame_J (rotM R (tail3 p)) (rotS R (tail3 p)) p' JS JS') idx dC r
   = dir s (mulm 3 (trm (rotM R (tail3 p))) B) idx dC r by [].
rewrite dir_mulm; apply: eq_fsum => y y3.
have ep : eqv 3 (tail3 p) (tail3 (P 0%N)) by move=> i _; exact: hp.
congr (_ * _); first by rewrite /trm (rotM_ext Rx ep).
pose Gm : mat F := fun z q => fsum 3 (fun w => rotS R (tail3 p) z w * JS (3 + w)%N q).
have dG z : (z < 3)%N -> dir s Gm idx dC z = phi P dP dC z.
  move=> z3; rewrite -[Gm]/(mulm 3 (rotS R (tail3 p)) (get_block JS 3 0)) dir_mulm.
  apply: eq_fsum => w w3; rewrite (rotS_ext Rx ep) //; congr (_ * _).
  rewrite /tail3 /get_segment -hd //; exact: eq_fsum.
have BE z1 q : B z1 q = JS' z1 q - cross p' (fun z => Gm z q) z1 by [].
rewrite -hd'; last by move: y3; clear; lia.
have -> : dir s B idx dC y = dir s JS' idx dC y - cross p' (dir s Gm idx dC) y.
  rewrite /dir; case: y y3 => [|[|[|y]]] // _; rewrite /cross !fsum_mull -!fsumB;
  by apply: eq_fsum => q _; rewrite !BE /cross; move: (Gm) => G1; ring.
rewrite addrC; congr (_ + _).
by case: y y3 => [|[|[|y]]] // _; rewrite /cross !dG // !hp'; ring.
Qed.

(* numerals *)
Ltac nrm := rewrite ?subnn ?subn0 -?[(3 + 0)%N]/3%N -?[(3 + 1)%N]/4%N -?[(3 + 2)%N]/5%N
  -?[(4 - 3)%N]/1%N -?[(5 - 3)%N]/2%N.

(* transformation *)
Lemma JT_top (p w : vec F) r : (r < 3)%N ->
  fsum 6 (fun y => (curveValueToTransformationAndJacobian R p).2 r y * w y)
  = w r - cross p (mulv 3 (rotS R (tail3 p)) (tail3 w)) r.
Proof.
case: r => [|[|[|r]]] // _;
by rewrite /= /set_block /eyem /= /mulm /mulv /oppm /crossMx /cross /head3 /tail3 /get_segment /=; nrm; ring.
Qed.

Lemma JT_bot (p w : vec F) r : (r < 3)%N ->
  fsum 6 (fun y => (curveValueToTransformationAndJacobian R p).2 (3 + r)%N y * w y)
  = mulv 3 (rotS R (tail3 p)) (tail3 w) r.
Proof.
case: r => [|[|[|r]]] // _;
by rewrite /= /set_block /eyem /= /mulv /tail3 /get_segment /=; nrm; ring.
Qed.

Section TMoved.
Hypothesis Rd : rot_deriv R.
Variables (P : nat -> vec F) (dP : mat F -> nat -> vec F).
Hypothesis H1 : forall dC h d, evalD6 eps (moved s dC h) x d = Ok (valD (moved s dC h) d) /\
        forall r, valD (moved s dC h) d r = P d r + h * dP dC d r.
Definition Tof dC h := curveValueToTransformation R (valD (moved s dC h) 0).
Definition rho dC : vec F := fun r => dP dC 0%N r - cross (P 0%N) (phi P dP dC) r.

Lemma Tof_value dC h : transformation R eps (moved s dC h) x = Ok (Tof dC h).
Proof. by rewrite /transformation; have [-> _] := H1 dC h 0%N. Qed.
Lemma Tinv_value dC h : inverseTransformation R eps (moved s dC h) x = Ok (invertInPlace (Tof dC h)).
Proof. by rewrite /inverseTransformation; have [-> _] := H1 dC h 0%N. Qed.

Lemma Tof_deriv dC (xi : vec F) r c : eqv 3 xi (rho dC) ->
  eqv 3 (get_segment xi 3) (phi P dP dC) -> (r < 4)%N -> (c < 4)%N ->
  deriv_at (fun h => Tof dC h r c) 0 (turned4 xi (Tof dC 0) r c).
Proof.
move=> hr hp /lt4[] r3 c4; rewrite /turned4; last first.
  rewrite r3 /=; apply: deriv_ext (deriv_const ((c == 3%N)%:R) 0) => // h.
  by rewrite /Tof cvt_bot.
rewrite r3; case/lt4: (c4) => c3.
  apply: deriv_ext (moved_C Rd H1 dC r3 c3); first by move=> h; rewrite /Tof cvt_rot.
  rewrite {2}/Tof cvt_bot // (ltn_eqF c3) mulr0 addr0.
  by apply: turned_ext => // [a a3|a b a3 b3]; [rewrite hp|rewrite /Tof cvt_rot // (moved_C0 H1)].
rewrite c3; apply: deriv_ext (moved_P H1 dC 0 r); first by move=> h; rewrite /Tof cvt_pos.
rewrite {2}/Tof cvt_bot // mulr1 hr // /rho /turned /cross /Tof.
by case: r r3 => [|[|[|r]]] // _; rewrite !cvt_pos // !(moved_P0 H1) !hp //; ring.
Qed.
End TMoved.

Theorem transformation_jac : rot_deriv R -> exists T T' J idx,
  [/\ transformationAndJacobian R eps s x = Ok (T, J, idx),
      transformation R eps s x = Ok T',
      eqm 4 4 T T', localCoefficientVectorIndices eps s x = Ok idx
    & pose_jacobian_of (fun s' => transformation R eps s' x) s J idx].
Proof.
move=> Rd; have [P [dP [idx [hidx sz H1 H2 H3]]]] := pose_local.
have [p [JS [hJ hp hd]]] := H3 0%N; have [hv hvP] := H2 0%N.
have ep : eqv 3 (tail3 p) (tail3 (P 0%N)) by move=> i _; exact: hp.
rewrite /transformationAndJacobian /transformation hJ hv.
do 4 eexists; split; try reflexivity; try by [].
  rewrite -[X in eqm _ _ X]/(curveValueToTransformation R p).
  move=> r c /lt4[] hr; last by rewrite hr => c4; rewrite !cvt_bot.
  case/lt4=> hc; last by rewrite hc !cvt_pos // hp hvP.
  rewrite !cvt_rot //; apply: rotM_ext => // i _; by rewrite /tail3 /get_segment hp hvP.
move=> dC; exists (Tof dC); first by move=> h; rewrite -(Tof_value H1).
have hphi i : (i < 3)%N -> mulv 3 (rotS R (tail3 p)) (tail3 (dir s JS idx dC)) i = phi P dP dC i.
  move=> i3; apply: mulv_ext => // [a b a3 b3|a a3]; first exact: rotS_ext.
  by rewrite /tail3 /get_segment hd.
move=> r c r4 c4; apply: (Tof_deriv Rd H1) => // i i3.
  rewrite dir_mulm JT_top // hd; last by move: i3; clear; lia.
  by rewrite /rho /cross; case: i i3 => [|[|[|i]]] // _; rewrite !hphi // !hp.
by rewrite /get_segment dir_mulm JT_bot // hphi.
Qed.

Theorem transformVector_jac (vt : vec F) : rot_deriv R -> exists v T' J idx,
  [/\ transformVectorAndJacobian R eps s x vt = Ok (v, J, idx),
      transformation R eps s x = Ok T',
      eqv 4 v (mulv 4 T' vt), localCoefficientVectorIndices eps s x = Ok idx
    & jacobian_of 4 (fun s' => do T <- transformation R eps s' x ; Ok (mulv 4 T vt)) s J idx].
Proof.
move=> Rd; have [T [T' [J [idx [h1 h2 h3 h4 h5]]]]] := transformation_jac Rd.
rewrite /transformVectorAndJacobian h1 h2 /=.
do 4 eexists; split; try reflexivity; try by [].
  by move=> r r4; apply: eq_fsum => i i4; rewrite h3.
move=> dC; have [Tf hT dT] := h5 dC; exists (fun h => mulv 4 (Tf h) vt).
  by move=> h; rewrite hT.
have [P [dP [idx' [hidx' _ H1 H2 _]]]] := pose_local.
have eT0 : eqm 4 4 (Tf 0) T.
  move=> r c r4 c4; have := hT 0; rewrite (Tof_value H1) => -[<-].
  rewrite h3 //; move: h2; rewrite /transformation; have [-> hP] := H2 0%N => -[<-].
  rewrite /Tof; case/lt4: r4 => hr; last by rewrite hr !cvt_bot.
  case/lt4: c4 => hc; last by rewrite hc !cvt_pos // (moved_P0 H1) hP.
  by rewrite !cvt_rot //; apply: rotM_ext => // i _; rewrite /tail3 /get_segment (moved_P0 H1) hP.
have bot c : (c < 4)%N -> T 3%N c = (c == 3%N)%:R.
  move=> c4; rewrite h3 //; move: h2; rewrite /transformation; have [-> hP] := H2 0%N => -[<-].
  by rewrite cvt_bot.
move=> r r4.
have := deriv_sum (n := 4) (fun c c4 => deriv_mul (dT r c r4 c4) (deriv_const (vt c) 0)).
apply: deriv_ext => //.
rewrite dir_mulm; set xi := dir s J idx dC.
rewrite [LHS](eq_fsum (g := fun c => turned4 xi T r c * vt c)); last first.
  move=> c c4; rewrite mulr0 addr0; congr (_ * _); rewrite /turned4; case: ifP => // hr.
  by rewrite /turned /cross !eT0 //; case: r {r4} hr => [|[|[|r]]] // _; rewrite !eT0.
case/lt4: r4 => hr; last first.
  rewrite hr fsum0; last by move=> c c4; rewrite /turned4 /= mul0r.
  by rewrite fsum0 // => y y6; rewrite /boxMinus /set_block /= mul0r.
have v3 : mulv 4 T vt 3%N = vt 3%N by rewrite /mulv /= !bot //=; ring.
case: r hr => [|[|[|r]]] // _;
rewrite /turned4 /turned /get_segment /cross /boxMinus /set_block /eyem /crossMx /= !v3;
rewrite /mulv /= !bot //=; nrm; ring.
Qed.

Lemma boxTimes_mul (T : mat F) (w : vec F) r : (r < 3)%N ->
  fsum 6 (fun y => oppm (boxTimes T) r y * w y)
   = - (mulv 3 T w r - cross (fun y => T y 3%N) (mulv 3 T (tail3 w)) r) /\
  fsum 6 (fun y => oppm (boxTimes T) (3 + r)%N y * w y) = - mulv 3 T (tail3 w) r.
Proof.
case: r => [|[|[|r]]] // _;
split; rewrite /oppm /boxTimes /set_block /= /mulm /mulv /oppm /crossMx /cross /tail3 /get_segment /zerom /=; nrm; ring.
Qed.
Theorem inverse_transformation_jac : rot_deriv R -> rot_proper R -> exists T T' J idx,
  [/\ inverseTransformationAndJacobian R eps s x = Ok (T, J, idx),
      inverseTransformation R eps s x = Ok T',
      eqm 4 4 T T', localCoefficientVectorIndices eps s x = Ok idx
    & pose_jacobian_of (fun s' => inverseTransformation R eps s' x) s J idx].
Proof.
move=> Rd Rp; have [P [dP [idx [hidx sz H1 H2 H3]]]] := pose_local.
have [p [JS [hJ hp hd]]] := H3 0%N; have [hv hvP] := H2 0%N.
have ep : eqv 3 (tail3 p) (tail3 (P 0%N)) by move=> i _; exact: hp.
have ev : eqv 3 (tail3 (valD s 0)) (tail3 (P 0%N)) by move=> i _; exact: hvP.
rewrite /inverseTransformationAndJacobian /inverseTransformation hJ hv hidx.
do 4 eexists; split; try reflexivity.
- rewrite -[X in eqm _ _ (invertInPlace X)]/(curveValueToTransformation R p).
  move=> r c /lt4[] hr; last by rewrite hr => c4; rewrite !inv_bot // !cvt_bot.
  case/lt4=> hc.
    by rewrite !inv_rot // !cvt_rot // (rotM_ext Rx ep) // (rotM_ext Rx ev).
  rewrite hc !inv_pos //; congr (- _); apply: eq_fsum => y y3.
  by rewrite (cvt_rot R p) // (cvt_rot R (valD s 0)) // !cvt_pos // (rotM_ext Rx ep) // (rotM_ext Rx ev) // hp hvP.
move=> dC; exists (fun h => invertInPlace (Tof dC h)).
  by move=> h; rewrite -(Tinv_value H1).
have hphi i : (i < 3)%N -> mulv 3 (rotS R (tail3 p)) (tail3 (dir s JS idx dC)) i = phi P dP dC i.
  move=> i3; apply: mulv_ext => // [a b a3 b3|a a3]; first exact: rotS_ext.
  by rewrite /tail3 /get_segment hd.
pose T0 := curveValueToTransformation R p.
pose Ti := invertInPlace T0; set xi := dir s _ idx dC.
set xi0 : vec F := fun y => fsum 6 (fun z =>
  (curveValueToTransformationAndJacobian R p).2 y z * dir s JS idx dC z).
have xiE r : xi r = fsum 6 (fun y => oppm (boxTimes Ti) r y * xi0 y).
  rewrite /xi (dir_ext (B := mulm 6 (oppm (boxTimes Ti))
     (mulm 6 (curveValueToTransformationAndJacobian R p).2 JS)));
    last by move=> q _; exact: mulm_assoc.
  by rewrite dir_mulm; apply: eq_fsum => y y6; rewrite dir_mulm.
pose C := Cof P.
have TiC a b : (a < 3)%N -> (b < 3)%N -> Ti a b = C b a.
  by move=> a3 b3; rewrite /Ti inv_rot // /T0 cvt_rot // (rotM_ext Rx ep).
have Tip a : (a < 3)%N -> Ti a 3%N = - mulv 3 (trm C) (P 0%N) a.
  move=> a3; rewrite /Ti inv_pos //; congr (- _); apply: eq_fsum => y y3.
  by rewrite /T0 cvt_rot // cvt_pos // (rotM_ext Rx ep) // hp.
have x0t i : (i < 3)%N -> xi0 i = rho P dP dC i.
  move=> i3; rewrite /xi0 JT_top // hd; last by move: i3; clear; lia.
  by rewrite /rho /cross; case: i i3 => [|[|[|i]]] // _; rewrite !hphi // !hp.
have x0b i : (i < 3)%N -> xi0 (3 + i)%N = phi P dP dC i by move=> i3; rewrite /xi0 JT_bot // hphi.
have xib i : (i < 3)%N -> get_segment xi 3 i = mulv 3 (oppm (trm C)) (phi P dP dC) i.
  move=> i3; rewrite /get_segment xiE; have [_ ->] := boxTimes_mul Ti xi0 i3.
  rewrite -fsumN; apply: eq_fsum => y y3; rewrite TiC // /tail3 /get_segment x0b //.
  by rewrite /oppm /trm mulNr.
have T0C a b : (a < 3)%N -> (b < 3)%N -> invertInPlace (Tof dC 0) a b = trm C a b.
  by move=> a3 b3; rewrite inv_rot // /Tof cvt_rot // (moved_C0 H1).
have T0p a : (a < 3)%N -> invertInPlace (Tof dC 0) a 3%N = - mulv 3 (trm C) (P 0%N) a.
  move=> a3; rewrite inv_pos //; congr (- _); apply: eq_fsum => y y3.
  by rewrite /Tof cvt_rot // cvt_pos // (moved_C0 H1) // (moved_P0 H1).
have T0b c : (c < 4)%N -> invertInPlace (Tof dC 0) 3%N c = (c == 3%N)%:R.
  by move=> c4; rewrite inv_bot // /Tof cvt_bot.
move=> r c r4 c4; rewrite /turned4; case/lt4: r4 => r3; last first.
  rewrite r3 /=; apply: deriv_ext (deriv_const ((c == 3%N)%:R) 0) => // h.
  by rewrite inv_bot // /Tof cvt_bot.
rewrite r3; case/lt4: (c4) => c3.
  apply: deriv_ext (moved_trC dC Rd Rp H1 r3 c3).
    by move=> h; rewrite inv_rot // /Tof cvt_rot.
  rewrite T0b // (ltn_eqF c3) mulr0 addr0.
  by apply: turned_ext => // [a a3|a b a3 b3]; [rewrite xib|rewrite T0C].
rewrite c3.
have := deriv_sum (n := 3) (fun y y3 => deriv_opp (deriv_mul (moved_C Rd H1 dC y3 r3) (moved_P H1 dC 0 y))).
apply: deriv_ext.
  move=> h; rewrite inv_pos // -fsumN; apply: eq_fsum => y y3.
  by rewrite /Tof cvt_rot // cvt_pos.
rewrite [LHS](eq_fsum (g := fun y => - (turned (phi P dP dC) C y r * P 0%N y + C y r * dP dC 0%N y)));
  last by move=> y y3; rewrite (moved_P0 H1) (moved_C0 H1).
rewrite T0b // eqxx mulr1 {2}/xi -/xi xiE; have [-> _] := boxTimes_mul Ti xi0 r3.
pose u := mulv 3 (trm C) (phi P dP dC); pose q := mulv 3 (trm C) (P 0%N).
have hT y : (y < 3)%N -> mulv 3 Ti (tail3 xi0) y = u y.
  by move=> y3; apply: eq_fsum => z z3; rewrite TiC // /tail3 /get_segment x0b.
have hb y : (y < 3)%N -> get_segment xi 3 y = - u y.
  by move=> y3; rewrite xib // -fsumN; apply: eq_fsum => z _; rewrite mulNr.
have T0q a : (a < 3)%N -> invertInPlace (Tof dC 0) a 3%N = - q a by exact: T0p.
have Tiq a : (a < 3)%N -> Ti a 3%N = - q a by exact: Tip.
have -> : mulv 3 Ti xi0 r = mulv 3 (trm C) (rho P dP dC) r.
  by apply: eq_fsum => z z3; rewrite TiC // x0t.
have -> : turned (get_segment xi 3) (invertInPlace (Tof dC 0)) r 3%N = - cross u q r.
  by rewrite /turned /cross; case: r r3 => [|[|[|r]]] // _; rewrite !hb // !T0q //; ring.
have -> : cross (fun y => Ti y 3%N) (mulv 3 Ti (tail3 xi0)) r = cross u q r.
  by rewrite /cross; case: r r3 => [|[|[|r]]] // _; rewrite !hT // !Tiq //; ring.
move: (cross u q r) => z; rewrite /rho; move: (phi P dP dC) => f.
move: (P 0%N) (dP dC 0%N) (C) => a b M; rewrite /mulv /trm /turned /cross /=; ring.
Qed.
Lemma dir_zero_row d v J idx dC r : evalJ6 eps s x d = Ok (v, J, idx) -> (r < 6)%N ->
  (forall j, dC r j = 0) -> dir s J idx dC r = 0.
Proof.
have [b [w [bk _ _ H]]] := local_form wfs e0 x1 x2.
have [_ [v' [J' [_ _ h1 _ h3]]]] := H (bs_coef s) d; rewrite with_coef_id in h1.
rewrite /evalJ6 h1 /= dim6 => -[_ <- <-] r6 z; rewrite -dim6 in r6.
rewrite /dir size_iota -dim6.
rewrite -[LHS]/(mulv (k * bs_dim s) J' (fun q => coefficientVector (with_coef s dC)
   (nth 0%N (iota (b * bs_dim s) (k * bs_dim s)) q)) r).
rewrite (@diag_blocks_mulv _ (bs_dim s) k (w d)) //; last by move=> c ck; apply: h3.
apply: fsum0 => j jk.
have jD : (j * bs_dim s + r < k * bs_dim s)%N.
  apply: (@leq_trans (j.+1 * bs_dim s)); first by rewrite mulSnr ltn_add2l.
  by rewrite leq_mul2r jk orbT.
rewrite nth_iota // addnA -mulnDl -[X in (_ * X + _)%N]/(bs_dim (with_coef s dC)).
rewrite coefficientVectorE //= ?z ?mul0r //.
rewrite -/(bs_ncoef (with_coef s dC)) /with_coef /bs_ncoef /= -/(bs_ncoef s).
by move: bk jk; clear; lia.
Qed.

(* the body-frame acceleration node: what it reports is right only if the orientation is
   the identity, and then only for changes of the position coefficients *)
Theorem acc_node_identity v J idx : rot_deriv R -> evalJ6 eps s x 0 = Ok (v, J, idx) ->
  eqm 3 3 (rotM R (tail3 v)) eyem ->
  exists2 J2, accelerationBodyFrameNode_J eps s x = Ok J2 &
    forall dC, (forall r j, (3 <= r)%N -> dC r j = 0) ->
    exists2 vf : F -> vec F,
      (forall h, accelerationBodyFrameNode_value R eps (moved s dC h) x = Ok (vf h)) &
      forall r, (r < 3)%N -> deriv_at (fun h => vf h r) 0 (dir s J2 idx dC r).
Proof.
move=> Rd hJ0 id; have [P [dP [idx' [_ H H4]]]] := body_frame_deriv 2 Rd.
have [p [JS [hJ hp hd]]] := H 0%N; have [p' [JS' [hJ' hp' hd']]] := H 2%N.
move: hJ0; rewrite hJ => -[ev eJ eidx]; subst p; subst JS; subst idx'.
exists JS'; first by rewrite /accelerationBodyFrameNode_J hJ'.
move=> dC z; have [vf h1 h2] := H4 dC; exists vf => // r r3.
apply: deriv_ext (h2 r r3) => //.
have p0 y : (y < 3)%N -> phi P dP dC y = 0.
  move=> y3; apply: fsum0 => i i3; rewrite /tail3 /get_segment -hd; last by move: i3; clear; lia.
  rewrite (dir_zero_row hJ) ?mulr0 //.
  by move=> j; apply: z; rewrite leq_addr.
rewrite /mulv (eq_fsum (g := fun y => (y == r)%:R * dP dC 2%N y)); last first.
  move=> y y3; congr (_ * _).
    rewrite /trm -[RHS]/(eyem y r) -id //; symmetry; apply: rotM_ext => // i _; by rewrite /tail3 /get_segment hp.
  by case: y y3 => [|[|[|y]]] // _; rewrite /cross !p0 // !mul0r subrr add0r.
by rewrite fsum_delta // hd' //; move: r3; clear; lia.
Qed.
End Jac.
