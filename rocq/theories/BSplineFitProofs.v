(* Least-squares fitting: the assembled systems and their minimisers. *)
From mathcomp Require Import all_ssreflect all_algebra.
From mathcomp.algebra_tactics Require Import ring.
From mathcomp.zify Require Import zify.
From Verif Require Import Prelude CoxDeBoor CoxDeBoorProofs BSplineModel BSplineSpec
  BSplineProofs BSplineEvalProofs BSplineAccessProofs BSplineCoefProofs BSplineInitProofs
  BSplinePolyProofs BSplineJacobianProofs BSplineMoreProofs BSplineIntegralProofs
  BSplineQuadProofs LinSolve.
Set Implicit Arguments.
Unset Strict Implicit.
Unset Printing Implicit Defensive.
Import GRing.Theory Num.Theory Order.Theory.
Local Open Scope ring_scope.

Section Rows.
Variable F : realFieldType.
Variable eps : F.
Variable s : bspline F.
Hypothesis wfs : wf s.
Hypothesis D0 : (0 < bs_dim s)%N.
Local Notation k := (bs_order s).
Local Notation n := (size (bs_knots s)).
Local Notation D := (bs_dim s).
Local Notation C := (bs_ncoef s).
Local Notation N := (C * D)%N.

(* flat coefficient vectors and coefficient matrices *)
Definition flat_of (c : vec F) (X : mat F) : Prop :=
  forall r j, (j < C)%N -> X r j = c (j * D + r)%N.

Lemma set_flat (c : vec F) s1 : setCoefficientVector s (DVec (D * C) c) = Ok s1 ->
  exists2 X, s1 = with_coef s X & flat_of c X.
Proof.
rewrite /setCoefficientVector /= eqxx /= => -[<-]; eexists; first by reflexivity.
by move=> r j jC; rewrite set_cols_loop0 jC.
Qed.

Lemma row_value x i d P c X : segment_of eps s x i -> Phi eps s x d = Ok P -> flat_of c X ->
  exists2 v, evalD eps (with_coef s X) x d = Ok v & forall r, (r < D)%N ->
    v r = fsum (k * D) (fun q => P r q * c ((i.+1 - k) * D + q)%N).
Proof.
move=> seg hP HX; have [ki iN] := segment_of_range wfs seg.
have wfX := wf_with_coef wfs X.
have [u [P' [hP' _ HP [v hv Hv] _]]] := Phi_entries wfX (s := with_coef s X) d seg.
have eP : P' = P by move: hP'; rewrite -[Phi eps _ x d]/(Phi eps s x d) hP => -[].
exists v => // r rD; rewrite Hv fsum_nested; apply: eq_fsum => j jk.
rewrite (fsum_pick (j := r)) //; last first.
  move=> q qD ne; rewrite -eP HP //; last first.
    by apply: (@leq_trans (j.+1 * D)%N); [rewrite mulSnr ltn_add2l|rewrite leq_mul2r jk orbT].
  by rewrite modnMDl modn_small // eq_sym (negbTE ne) !mul0r.
rewrite -eP HP //; last first.
  by apply: (@leq_trans (j.+1 * D)%N); [rewrite mulSnr ltn_add2l|rewrite leq_mul2r jk orbT].
rewrite modnMDl modn_small // eqxx mul1r divnMDl // divn_small // addn0 /= HX.
  by rewrite mulrC mulnDl addnA.
by move: (wf_cols wfs) (wf_order wfs) ki iN (jk : (j < k)%N); clear; lia.
Qed.

(* m row blocks have been written: block j acts as T j, its right-hand side is w j *)
Definition blocks (T : nat -> vec F -> vec F) (w : nat -> vec F) m
  (st : mat F * vec F * nat) : Prop :=
  let: (A, b, brow) := st in
  [/\ brow = (m * D)%N,
      forall j r c, (j < m)%N -> (r < D)%N -> mulv N A c (j * D + r)%N = T j c r,
      forall j r, (j < m)%N -> (r < D)%N -> b (j * D + r)%N = w j r
    & forall x y, (m * D <= x)%N -> A x y = 0].

Lemma indicesE x i : segment_of eps s x i ->
  localCoefficientVectorIndices eps s x = Ok (iota ((i.+1 - k) * D) (k * D)).
Proof.
move=> seg; have [ki iN] := segment_of_range wfs seg.
by rewrite /localCoefficientVectorIndices (computeTIndexE wfs seg) /= ki.
Qed.

Lemma kD0 : (0 < k * D)%N.
Proof. by rewrite muln_gt0 D0 andbT; have := wf_order wfs; lia. Qed.

Lemma head_iota a m : (0 < m)%N -> head 0%N (iota a m) = a.
Proof. by case: m. Qed.

Lemma put_row_step T w m st x i (Pm : outcome (mat F)) P :
  blocks T w m st -> segment_of eps s x i -> Pm = Ok P ->
  (forall c r, (r < D)%N -> T m c r = fsum (k * D) (fun q => P r q * c ((i.+1 - k) * D + q)%N)) ->
  exists2 st', put_row eps s x Pm (w m) st = Ok st' & blocks T w m.+1 st'.
Proof.
case: st => [[A b] brow] [-> HT Hw Hz] seg -> HP; have [ki iN] := segment_of_range wfs seg.
have hc : ((i.+1 - k) * D + k * D <= C * D)%N.
  by rewrite -mulnDl leq_mul2r; apply/orP; right; move: (wf_cols wfs) (wf_order wfs) ki iN; clear; lia.
rewrite /put_row (indicesE seg) /= size_iota kD0 /= head_iota ?kD0 // [(D * C)%N]mulnC hc /=.
eexists; first by reflexivity.
have lo j r : (j < m)%N -> (r < D)%N -> (m * D <= j * D + r)%N = false.
  move=> jm rD; apply/negbTE; rewrite -ltnNge; apply: (@leq_trans (j.+1 * D)%N).
    by rewrite mulSnr ltn_add2l.
  by rewrite leq_mul2r jm orbT.
split; first by rewrite mulSnr.
- move=> j r c; rewrite ltnS leq_eqVlt => /orP[/eqP ->|jm] rD; last first.
    rewrite -HT //; apply: eq_mulv => // y _; by rewrite /set_block lo.
  rewrite HP // /mulv (fsum_window (r0 := ((i.+1 - k) * D)%N) (m := (k * D)%N)) //.
    apply: eq_fsum => q qD; rewrite /set_block !leq_addr !ltn_add2l rD qD /= !addKn //.
  move=> y yN h; rewrite /set_block leq_addr ltn_add2l rD /= (negbTE h) Hz ?mul0r //.
  exact: leq_addr.
- move=> j r; rewrite ltnS leq_eqVlt => /orP[/eqP ->|jm] rD; last first.
    by rewrite /set_segment lo //= Hw.
  by rewrite /set_segment leq_addr ltn_add2l rD /= addKn.
move=> x' y; rewrite mulSnr => h; rewrite /set_block [(x' < _)%N]ltnNge h /= andbF Hz //.
exact: leq_trans (leq_addr _ _) h.
Qed.

(* same assembly, blockwise *)
Definition same_state (st st' : mat F * vec F * nat) : Prop :=
  let: (A, b, m) := st in let: (A', b', m') := st' in
  [/\ forall x y, A x y = A' x y, forall x, b x = b' x, m = m' & (D %| m)%N].

Lemma set_block_cols (A B : mat F) r0 c0 nr m e x y :
  set_block (set_block A r0 c0 nr m B) r0 (c0 + m) nr e (fun r c => B r (m + c)%N) x y =
  set_block A r0 c0 nr (m + e) B x y.
Proof.
rewrite /set_block addnA.
case: (leqP r0 x) => //= _; case: (ltnP x (r0 + nr)) => //= _.
case: (leqP (c0 + m) y) => h; rewrite /= ?andbF ?andbT.
  rewrite (leq_trans (leq_addr m c0) h) /=; case: ifP => // _.
  by congr (B _ _); move: h; clear; lia.
case: (leqP c0 y) => //= _; rewrite (_ : y < c0 + m + e)%N //.
by apply: leq_trans h _; exact: leq_addr.
Qed.

Lemma eq_set_block (Q Q' B B' : mat F) r0 c0 a b x y : (forall x y, Q x y = Q' x y) ->
  (forall x y, B x y = B' x y) -> set_block Q r0 c0 a b B x y = set_block Q' r0 c0 a b B' x y.
Proof. by move=> h h'; rewrite /set_block h h'. Qed.

Lemma sparse_row_loop (A P : mat F) r0 b m x y :
  floop 0 m (fun j (A : mat F) =>
     set_block A r0 ((b + j) * D) D D (get_block P 0 (j * D))) A x y
  = set_block A r0 (b * D) D (m * D) P x y.
Proof.
elim: m x y => [|m IH] x y.
  rewrite floop_nil // mul0n /set_block addn0.
  by rewrite [X in if X then _ else _](_ : _ = false) //; move: (_ * D)%N; clear; lia.
by rewrite floopSr // mulSnr -set_block_cols [((b + m) * D)%N]mulnDl; apply: eq_set_block.
Qed.

Lemma put_row_sparseE x Pm w st st' : same_state st st' ->
  orel same_state (put_row eps s x Pm w st) (put_row_sparse eps s x Pm w st').
Proof.
case: st => [[A b] m]; case: st' => [[A' b'] m'] [hA hb <- dm].
rewrite /put_row /put_row_sparse /localCoefficientVectorIndices.
case: (computeTIndex eps s x) => [[w0 i]|e|] //=; case: (k <= i.+1)%N => //=.
case: Pm => [P|e|] //=; rewrite size_iota kD0 /= head_iota ?kD0 //.
rewrite mulnK // -mulnDl [(D * C)%N]mulnC leq_mul2r gtn_eqF //=.
case: (_ <= C)%N => //=; rewrite divnK //; split=> //; last by rewrite dvdn_addl ?dvdnn.
  move=> a c; rewrite sparse_row_loop; exact: eq_set_block.
by move=> a; rewrite /set_segment hb.
Qed.

Lemma put_positions_sparse times pts st st' : same_state st st' ->
  orel same_state (put_positions eps (put_row eps) s times pts st)
                  (put_positions eps (put_row_sparse eps) s times pts st').
Proof.
move=> h; rewrite /put_positions; elim: (dm_cols pts) => [|m IH]; first by rewrite !oloop_nil.
rewrite !oloopSr //; move: IH; set o1 := oloop 0 m _ _; set o2 := oloop 0 m _ _.
case: o1 => [st1|e|]; case: o2 => [st2|e'|] //= H; exact: put_row_sparseE.
Qed.

Lemma fit_sparse_dense times pts lambda :
  orel (fun p q : mat F * vec F => (forall x y, p.1 x y = q.1 x y) /\ forall x, p.2 x = q.2 x)
    (fit_normal_equations eps s times pts lambda)
    (fit_normal_equations_sparse eps s times pts lambda).
Proof.
rewrite /fit_normal_equations /fit_normal_equations_sparse.
have st0 : same_state (zerom, zerov, 0%N) (zerom, zerov, 0%N) by split.
have := put_positions_sparse times pts st0.
case: (put_positions _ (put_row _) _ _ _ _) => [[[A b] m]|e|];
  case: (put_positions _ (put_row_sparse _) _ _ _ _) => [[[A' b'] m']|e'|] //=.
move=> [hA hb _ _].
have := @sparse_dense _ s (fun i =>
  segmentQuadraticIntegralDiag s (DVec D (fun _ => lambda)) i (if k == 2 then 1 else 2)%N).
rewrite /curveQuadraticIntegralDiag /curveQuadraticIntegralDiagSparse eqxx /=.
set o1 := curve_accumulate _ _; set o2 := sparse_accumulate _ _.
case: o1 => [Q|e|]; case: o2 => [Q'|e'|] //= hQ; split=> [x y|x].
  by rewrite hQ; congr (_ + _); apply: eq_fsum => z _; rewrite /trm !hA.
by apply: eq_fsum => z _; rewrite /trm hA hb.
Qed.

(* the position rows *)
Lemma put_positionsE (times : dvec F) (pts : dmat F) : 0 < eps ->
  (forall i, (i < dm_cols pts)%N -> tmin s <= times i <= tmax s) ->
  forall T w m0 st0, blocks T w m0 st0 ->
  (forall j, (j < dm_cols pts)%N -> w (m0 + j)%N = (fun r => pts r j)) ->
  (forall j c X, (j < dm_cols pts)%N -> flat_of c X ->
     exists2 v, eval eps (with_coef s X) (times j) = Ok v &
       forall r, (r < D)%N -> T (m0 + j)%N c r = v r) ->
  exists2 st, put_positions eps (put_row eps) s times pts st0 = Ok st
    & blocks T w (m0 + dm_cols pts)%N st.
Proof.
move=> e0 Ht T w m0 st0 H0 Hw HT.
apply: (@oloop_ind _ 0 (dm_cols pts) _ st0 (fun i st => blocks T w (m0 + i)%N st)) => //.
  by rewrite addn0.
move=> i st /andP[_ im] Hst; have /andP[x1 x2] := Ht i im.
have [|j seg] := segment_exists wfs e0 x1 (x := times i).
  by apply: le_lt_trans x2 _; rewrite ltr_addl.
have [u [P [hP _ _ _ _]]] := Phi_entries wfs 0 seg.
rewrite -(Hw i im) addnS; apply: (put_row_step Hst seg hP) => c r rD.
pose X : mat F := fun r j => c (j * D + r)%N.
have HX : flat_of c X by [].
have [v1 hv1 Hv1] := HT i c X im HX.
have [v hv Hv] := row_value seg hP HX.
by rewrite Hv1 // -Hv //; move: hv1; rewrite /eval hv => -[->].
Qed.
End Rows.

Section Cost.
Variable F : realFieldType.
Variable eps : F.
Variable s : bspline F.
Hypothesis wfs : wf s.
Hypothesis D0 : (0 < bs_dim s)%N.
Hypothesis e0 : 0 < eps.
Local Notation k := (bs_order s).
Local Notation n := (size (bs_knots s)).
Local Notation D := (bs_dim s).
Local Notation C := (bs_ncoef s).
Local Notation N := (C * D)%N.

Definition canon (c : vec F) : mat F := fun r j => c (j * D + r)%N.
Lemma canon_flat c : flat_of s c (canon c). Proof. by []. Qed.

(* value number r of the d-th derivative at x as a function of the coefficient vector *)
Definition valat x d (c : vec F) : vec F :=
  if evalD eps (with_coef s (canon c)) x d is Ok v then v else zerov.

Lemma valatE x d c X : tmin s <= x -> x <= tmax s -> flat_of s c X ->
  exists2 v, evalD eps (with_coef s X) x d = Ok v & forall r, (r < D)%N -> valat x d c r = v r.
Proof.
move=> x1 x2 HX; have [|i seg] := segment_exists wfs e0 x1 (x := x).
  by apply: le_lt_trans x2 _; rewrite ltr_addl.
have [u [P [hP _ _ _ _]]] := Phi_entries wfs d seg.
have [v hv Hv] := row_value wfs D0 seg hP HX.
have [v' hv' Hv'] := row_value wfs D0 seg hP (canon_flat c).
by exists v => // r rD; rewrite /valat hv' Hv // Hv'.
Qed.

Lemma piece_flat c X Y r i : flat_of s c X -> flat_of s c Y ->
  spline_piece (with_coef s X) r i = spline_piece (with_coef s Y) r i.
Proof.
by move=> HX HY; apply: eq_bigr => j _; congr (_ *: _); rewrite /= HX // HY.
Qed.

Lemma diag_form_integral (lambda : F) d c X G : flat_of s c X ->
  antiderivative_of s (fun i => fsum D (fun r => (spline_piece (with_coef s X) r i)^`(d) ^+ 2)) G ->
  fsum (numValidTimeSegments k n)
    (fun i => seg_form s (fun r q => (r == q)%:R * lambda) c c i d)
  = lambda * (G (tmax s) - G (tmin s)).
Proof.
move=> HX HG; have [s1 h1 _] := @setCoefficientVectorE _ s (DVec (D * C) c) erefl.
have [Y eY HY] := set_flat h1.
rewrite mulrBr; apply: (forms_integral wfs h1 h1 (G := fun x => lambda * G x)) => i ki iN.
have [P dP GP] := HG i ki iN; exists (lambda *: P); last first.
  by move=> x x1 x2; rewrite hornerZ GP.
rewrite derivZ dP fsum_scale; apply: eq_fsum => r rD.
rewrite (fsum_pick (j := r)) //; last by move=> q _ ne; rewrite eq_sym (negbTE ne) mul0r scale0r.
by rewrite eqxx mul1r expr2 eY (piece_flat _ _ HY HX).
Qed.

Lemma bil_diag_psd (lambda : F) (v : nat -> F) : 0 <= lambda ->
  0 <= bil D D v (fun r q => (r == q)%:R * lambda) v.
Proof.
move=> l0; apply: fsum_ge0 => x xD; rewrite (fsum_pick (j := x)) //.
  by rewrite eqxx mul1r mulrAC -expr2 mulr_ge0 ?sqr_ge0.
by move=> y _ ne; rewrite eq_sym (negbTE ne) mul0r mulr0 mul0r.
Qed.

Lemma normal_equations_cost (times : dvec F) (pts : dmat F) lambda : 0 <= lambda ->
  (forall i, (i < dm_cols pts)%N -> tmin s <= times i <= tmax s) ->
  let d := (if k == 2 then 1 else 2)%N in
  let m := (dm_cols pts * D)%N in
  exists A b Q, [/\ fit_normal_equations eps s times pts lambda
      = Ok (fun r c => mulm m (trm A) A r c + Q r c, mulv m (trm A) b),
    (forall x y, (x < N)%N -> (y < N)%N -> Q x y = Q y x),
    (forall v, 0 <= bil N N v Q v)
    & forall c X E, flat_of s c X -> fit_cost eps (with_coef s X) times pts lambda d E ->
        E = qcost m N A b Q c].
Proof.
move=> l0 Ht d m; rewrite /fit_normal_equations.
pose T j c := valat (times j) 0 c; pose w j : vec F := fun r => pts r j.
have H0 : blocks s T w 0 (zerom, zerov, 0%N) by split.
have [j //|j c X jm HX|[[A b] br] -> [_ HA Hb _]] := put_positionsE wfs D0 e0 Ht H0.
  have /andP[x1 x2] := Ht j jm; exact: (valatE 0 x1 x2 HX).
have [Q hQ HQ] := @curveQuadDiagE _ s wfs (DVec D (fun _ => lambda)) d erefl.
rewrite /= hQ /=; exists A, b, Q; split=> //.
- move=> x y xN yN; rewrite -(bil_unit Q xN yN) -(bil_unit Q yN xN) !HQ.
  apply: eq_fsum => i _; apply: (@seg_form_sym _ s) => r q _ _.
  by rewrite eq_sym /=.
- move=> v; rewrite HQ; apply: fsum_ge0 => i iN; apply: (seg_form_psd wfs _ _ iN) => u.
  exact: bil_diag_psd.
move=> c X E HX [v [G [Hv HG ->]]]; rewrite /qcost HQ /=.
rewrite (diag_form_integral lambda HX HG); congr (_ + _).
rewrite /m fsum_nested; apply: eq_fsum => i im; apply: eq_fsum => r rD.
rewrite HA // Hb //; congr ((_ - _) ^+ 2).
have /andP[x1 x2] := Ht i im; have [v' hv' Hv'] := valatE 0 x1 x2 HX.
by rewrite /T Hv' //; move: hv'; rewrite -[evalD _ _ _ _]/(eval eps (with_coef s X) (times i)) Hv // => -[->].
Qed.

Lemma cost_exists (times : dvec F) (pts : dmat F) lambda d X :
  (forall i, (i < dm_cols pts)%N -> tmin s <= times i <= tmax s) ->
  exists E, fit_cost eps (with_coef s X) times pts lambda d E.
Proof.
move=> Ht; have wfX := wf_with_coef wfs X.
pose f i := fsum (bs_dim (with_coef s X)) (fun r => (spline_piece (with_coef s X) r i)^`(d) ^+ 2).
have HG := antiderivative_exists wfX f.
eexists; exists (fun i => if eval eps (with_coef s X) (times i) is Ok v then v else zerov), (acc (with_coef s X) f).
split; [|exact: HG|by reflexivity].
move=> i im; have /andP[x1 x2] := Ht i im.
have [|j seg] := segment_exists wfX e0 x1 (x := times i).
  by apply: le_lt_trans x2 _; rewrite ltr_addl.
by have [u [P [_ _ _ [v hv _] _]]] := Phi_entries wfX 0 seg; rewrite /eval hv.
Qed.

Lemma with_coefK X Y : with_coef (with_coef s X) Y = with_coef s Y.
Proof. by []. Qed.

(* whatever the right-hand sides' and matrix' representation: a solution of the assembled
   system is a minimiser *)
Lemma fit_minimises (times : dvec F) (pts : dmat F) lambda (o : outcome (mat F * vec F)) solve :
  exact_solver solve -> 0 <= lambda ->
  (forall i, (i < dm_cols pts)%N -> tmin s <= times i <= tmax s) ->
  orel (fun p q : mat F * vec F => (forall x y, p.1 x y = q.1 x y) /\ forall x, p.2 x = q.2 x)
    (fit_normal_equations eps s times pts lambda) o ->
  let d := (if k == 2 then 1 else 2)%N in
  exists A b, o = Ok (A, b) /\ exists2 X,
    setCoefficientVector s (DVec N (solve N A b)) = Ok (with_coef s X) &
    exists2 E, fit_cost eps (with_coef s X) times pts lambda d E &
    forall c s'' E'', setCoefficientVector (with_coef s X) c = Ok s'' ->
      fit_cost eps s'' times pts lambda d E'' -> E <= E''.
Proof.
move=> ex l0 Ht; have [A [b [Q [-> sQ psd HE]]]] := normal_equations_cost l0 Ht.
case: o => [[M y]|e|] //= [hM hy]; set d := (if _ then _ else _); exists M, y; split=> //.
have [s1 h1 _] := @setCoefficientVectorE _ s (DVec (D * C) (solve N M y)) erefl.
have [X eX HX] := set_flat h1; exists X; first by rewrite mulnC in h1; rewrite h1 eX.
have [E hE] := cost_exists lambda d X Ht; exists E => // c s'' E'' hc hE''.
have cs : dv_size c = (D * C)%N by move: hc; rewrite /setCoefficientVector /sm_assert; case: eqP.
case: c cs hc => cn c /= -> hc.
have [Y eY HY] := @set_flat _ (with_coef s X) c s'' hc.
move: hE''; rewrite eY with_coefK => hE''.
rewrite (HE _ _ _ HX hE) (HE c Y _ HY hE''); apply: (normal_min _ sQ psd) => i iN.
have [x Hx] := @normal_solvable _ (dm_cols pts * D)%N N A b Q sQ psd.
transitivity (mulv N M (solve N M y) i); first by apply: eq_mulv => // j _; rewrite -hM.
rewrite ex //.
by exists x => j jN; rewrite -hy -Hx //; apply: eq_mulv => // z _; rewrite -hM.
Qed.
End Cost.

Section Init.
Variable F : realFieldType.
Variable eps : F.
Hypothesis e0 : 0 < eps.
Variable solve : nat -> mat F -> vec F -> vec F.
Hypothesis exact : exact_solver solve.

Lemma check_nondecreasingE (times : dvec F) :
  (forall i j, (i <= j)%N -> (j < dv_size times)%N -> times i <= times j) ->
  check_nondecreasing times = Ok tt.
Proof.
move=> H; rewrite /check_nondecreasing.
case: (posnP (dv_size times)) => [->|n0]; first by rewrite oloop_nil.
have := @oloop_ind unit 1 (dv_size times) (fun i _ =>
    assert times i.-1 <= times i raise ExnSpline ; Ok tt) tt (fun _ _ => True) n0 I.
case=> [i u /andP[i1 i2] _|[] ->//].
by exists tt => //; rewrite H ?leq_pred.
Qed.

Lemma fit_setupE (s : bspline F) (times : dvec F) (pts : dmat F) m :
  (2 <= bs_order s)%N -> (size (bs_knots s) <= numKnotsRequired (bs_order s) m)%N ->
  (1 <= m)%N -> (2 <= dv_size times)%N -> dm_cols pts = dv_size times ->
  nondecreasing times ->
  exists2 s1, fit_setup s times pts m = Ok s1 &
  [/\ wf s1, bs_order s1 = bs_order s, bs_dim s1 = dm_rows pts,
      numValidTimeSegments (bs_order s1) (size (bs_knots s1)) = m
    & [/\ tmin s1 = times 0%N, tmax s1 = times (dv_size times).-1
     & forall i, (i < dm_cols pts)%N -> tmin s1 <= times i <= tmax s1]].
Proof.
move=> k2 old m1 t2 pc Ht; rewrite /fit_setup /check_times pc eqxx t2 m1 /=.
rewrite check_nondecreasingE //=.
set dt := _ / _; set ks := uniform_knots _ _ _ _; set c := DMat _ _ _.
have t02 : (0 < dv_size times)%N by exact: leq_trans t2.
have dt0 : 0 <= dt.
  by rewrite divr_ge0 ?ler0n // subr_ge0; apply: Ht => //; rewrite prednK.
have so : sorted <=%R ks by apply: uniform_sorted.
have sz : size ks = numKnotsRequired (bs_order s) m by rewrite size_mkseq.
have nE : numKnotsRequired (bs_order s) m = (m + 2 * bs_order s - 1)%N.
  by rewrite /numKnotsRequired /numCoefficientsRequired; move: (bs_order s) k2 m1; clear; lia.
have n2 : (2 * bs_order s <= size ks)%N by rewrite sz nE; move: k2 m1; clear; lia.
have cE : (dm_cols c + bs_order s = size ks)%N.
  by rewrite sz nE /c /= /numCoefficientsRequired; move: k2 m1; clear; lia.
have old' : (size (bs_knots s) <= size ks)%N by rewrite sz.
have h1 := setKnots_succeeds k2 so n2 cE old'; rewrite h1.
set s1 := BSpline _ _ _ _ in h1 *; exists s1 => //.
have e1 : tmin s1 = times 0%N.
  rewrite /tmin /kn /s1 /= uniform_knotsE; last by rewrite nE; move: k2; clear; lia.
  have -> : ((bs_order s).-1)%:R = (bs_order s)%:R - 1 :> F.
    by rewrite -subn1 natrB //; move: k2; clear; lia.
  by rewrite subrr mul0r addr0.
have e2 : tmax s1 = times (dv_size times).-1.
  rewrite /tmax /kn /s1 /= sz uniform_knotsE; last by rewrite nE; move: k2 m1; clear; lia.
  have -> : (numKnotsRequired (bs_order s) m - bs_order s = m + (bs_order s - 1))%N.
    by rewrite nE; move: k2 m1; clear; lia.
  rewrite natrD natrB; last by move: k2; clear; lia.
  rewrite addrK /dt mulrCA divff ?mulr1; last by rewrite pnatr_eq0 -lt0n.
  by rewrite addrC subrK.
split=> //.
- by rewrite /s1 /= sz counts_roundtrip //; move: k2; clear; lia.
split=> // i im; rewrite e1 e2; apply/andP; split; apply: Ht => //.
  by move: im; clear; lia.
by rewrite prednK.
Qed.

(* what a minimiser is *)
Lemma orel_refl_fit (o : outcome (mat F * vec F)) :
  orel (fun p q : mat F * vec F => (forall x y, p.1 x y = q.1 x y) /\ forall x, p.2 x = q.2 x) o o.
Proof. by case: o. Qed.

Section Uniform.
Variables (s : bspline F) (times : dvec F) (pts : dmat F) (m : nat) (lambda : F).
Hypothesis k2 : (2 <= bs_order s)%N.
Hypothesis old : (size (bs_knots s) <= numKnotsRequired (bs_order s) m)%N.
Hypothesis m1 : (1 <= m)%N.
Hypothesis D1 : (1 <= dm_rows pts)%N.
Hypothesis t2 : (2 <= dv_size times)%N.
Hypothesis pc : dm_cols pts = dv_size times.
Hypothesis Ht : nondecreasing times.
Hypothesis l0 : 0 <= lambda.

Definition fitted (s' : bspline F) : Prop :=
  [/\ wf s', bs_order s' = bs_order s, bs_dim s' = dm_rows pts,
      numValidTimeSegments (bs_order s') (size (bs_knots s')) = m
    & tmin s' = times 0%N /\ tmax s' = times (dv_size times).-1].

Lemma initSpline3_best : exists2 s', initSpline3 eps solve s times pts m lambda = Ok s' &
  fitted s' /\ is_best_fit eps s' times pts lambda (if bs_order s == 2 then 1 else 2)%N.
Proof.
have [s1 h1 [wf1 o1 d1 n1 [a1 b1 Ht1]]] := fit_setupE k2 old m1 t2 pc Ht.
have D01 : (0 < bs_dim s1)%N by rewrite d1.
have [A [b [hA [X hX HX]]]] := fit_minimises wf1 D01 e0 exact l0 Ht1 (orel_refl_fit _).
exists (with_coef s1 X); first by rewrite /initSpline3 h1 /= hA /= hX.
rewrite o1 in HX; split; last exact: HX.
by split=> //; apply: wf_with_coef.
Qed.

Lemma initSplineSparse_best : exists2 s', initSplineSparse eps solve s times pts m lambda = Ok s' &
  fitted s' /\ is_best_fit eps s' times pts lambda (if bs_order s == 2 then 1 else 2)%N.
Proof.
have [s1 h1 [wf1 o1 d1 n1 [a1 b1 Ht1]]] := fit_setupE k2 old m1 t2 pc Ht.
have D01 : (0 < bs_dim s1)%N by rewrite d1.
have [A [b [hA [X hX HX]]]] := fit_minimises wf1 D01 e0 exact l0 Ht1 (fit_sparse_dense eps wf1 D01 times pts lambda).
exists (with_coef s1 X); first by rewrite /initSplineSparse h1 /= hA /= hX.
rewrite o1 in HX; split; last exact: HX.
by split=> //; apply: wf_with_coef.
Qed.
End Uniform.

Lemma initSplineSparseKnots_best (s : bspline F) (times : dvec F) (pts : dmat F) ks lambda :
  (2 <= bs_order s)%N -> (size (bs_knots s) <= size ks)%N -> (2 * bs_order s <= size ks)%N ->
  sorted <=%R ks -> (1 <= dm_rows pts)%N -> (2 <= dv_size times)%N ->
  dm_cols pts = dv_size times -> nondecreasing times -> 0 <= lambda ->
  nth 0 ks (bs_order s).-1 <= times 0%N ->
  times (dv_size times).-1 <= nth 0 ks (size ks - bs_order s) ->
  exists2 s', initSplineSparseKnots eps solve s times pts ks lambda = Ok s' &
  [/\ wf s', bs_order s' = bs_order s, bs_dim s' = dm_rows pts, bs_knots s' = ks
    & is_best_fit eps s' times pts lambda (if bs_order s == 2 then 1 else 2)%N].
Proof.
move=> k2 old n2 so D1 t2 pc Ht l0 lo hi.
rewrite /initSplineSparseKnots /check_times pc eqxx t2 /= check_nondecreasingE //=.
set c := DMat _ _ _.
have cE : (dm_cols c + bs_order s = size ks)%N.
  by rewrite /c /= /numCoefficientsRequired; move: (bs_order s) (size ks) k2 n2; lia.
have h1 := setKnots_succeeds k2 so n2 cE old; rewrite h1 /=.
set s1 := BSpline _ _ _ _ in h1 *.
have wf1 : wf s1 := setKnots_wf k2 so h1.
have Ht1 : forall i, (i < dm_cols pts)%N -> tmin s1 <= times i <= tmax s1.
  move=> i im; rewrite pc in im; apply/andP; split.
    apply: le_trans lo _; apply: Ht => //.
  apply: le_trans hi; apply: Ht; last by rewrite prednK //; apply: leq_trans t2.
  by move: im; clear; lia.
have [A [b [hA [X hX HX]]]] := fit_minimises wf1 D1 e0 exact l0 Ht1 (fit_sparse_dense eps wf1 D1 times pts lambda).
exists (with_coef s1 X); first by rewrite hA /= hX.
by split=> //; apply: wf_with_coef.
Qed.

(* initSpline2: penalty at the knots *)
Lemma initSpline2_best (s : bspline F) (times : dvec F) (pts : dmat F) m lambda :
  (2 <= bs_order s)%N -> (size (bs_knots s) <= numKnotsRequired (bs_order s) m)%N ->
  (1 <= m)%N -> (1 <= dm_rows pts)%N -> (2 <= dv_size times)%N ->
  dm_cols pts = dv_size times -> nondecreasing times ->
  exists2 s', initSpline2 eps solve s times pts m lambda = Ok s' &
  fitted s times pts m s' /\
  exists2 E, fit_cost2 eps s' times pts lambda E &
    forall c s'' E'', setCoefficientVector s' c = Ok s'' ->
      fit_cost2 eps s'' times pts lambda E'' -> E <= E''.
Proof.
move=> k2 old m1 D1 t2 pc Ht; rewrite /initSpline2.
have [s1 -> [wf1 o1 d1 n1 [a1 b1 Ht1]]] := fit_setupE k2 old m1 t2 pc Ht.
rewrite /= -o1; set k := bs_order s1; set n := size (bs_knots s1); set D := bs_dim s1.
have hk := wf_order wf1; have hn := wf_size wf1; rewrite -/k -/n in hk hn.
have D01 : (0 < D)%N by rewrite /D d1.
pose K2 := (n - 2 * k + 2)%N.
pose T j c : vec F := if (j < K2)%N then fun r => lambda * valat eps s1 (kn s1 (k - 1 + j)%N) 2 c r
  else valat eps s1 (times (j - K2)%N) 0 c.
pose w j : vec F := if (j < K2)%N then zerov else fun r => pts r (j - K2)%N.
have knb i : (k - 1 <= i)%N -> (i < n - k + 1)%N -> tmin s1 <= kn s1 i /\ kn s1 i <= tmax s1.
  move=> i1 i2; split; apply: (kn_mono wf1); rewrite -/k -/n; move: i1 i2 hk hn; clear; lia.
have [st1 -> Hst1] : exists2 st, oloop (k - 1) (n - k + 1) (fun i st =>
     put_row eps s1 (kn s1 i)
       (do P <- Phi eps s1 (kn s1 i) 2 ; Ok (fun r c => lambda * P r c)) zerov st) (zerom, zerov, 0%N)
    = Ok st & blocks s1 T w (n - k + 1 - (k - 1))%N st.
  apply: (@oloop_ind _ (k - 1) (n - k + 1) _ _ (fun i st => blocks s1 T w (i - (k - 1))%N st)).
  - by move: hk hn; clear; lia.
  - by rewrite subnn; split.
  move=> i st /andP[i1 i2] Hst; have [x1 x2] := knb i i1 i2.
  have [|j seg] := segment_exists wf1 e0 x1 (x := kn s1 i).
    by apply: le_lt_trans x2 _; rewrite ltr_addl.
  have [u [P [hP _ _ _ _]]] := Phi_entries wf1 2 seg.
  have lt : (i - (k - 1) < K2)%N by rewrite /K2; move: i1 i2 hk hn; clear; lia.
  rewrite (_ : zerov = w (i - (k - 1))%N); last by rewrite /w lt.
  rewrite (_ : i.+1 - (k - 1) = (i - (k - 1)).+1)%N; last by move: i1; clear; lia.
  rewrite hP /=; apply: (put_row_step wf1 D01 Hst seg (erefl _)) => c r rD.
  rewrite /T lt (_ : k - 1 + (i - (k - 1)) = i)%N; last by move: i1; clear; lia.
  have [v hv Hv] := row_value wf1 D01 seg hP (canon_flat (s := s1) c).
  rewrite /valat hv Hv // fsum_mull; apply: eq_fsum => q _; by rewrite mulrA.
rewrite /= -/n -/k; have eK : (n - k + 1 - (k - 1) = K2)%N by rewrite /K2; move: hk hn; clear; lia.
rewrite eK in Hst1.
have [j jm|j c X jm HX|[[A b] br] -> [_ HA Hb _]] := put_positionsE wf1 D01 e0 Ht1 Hst1.
- by rewrite /w ltnNge leq_addr /= addKn.
- rewrite /T ltnNge leq_addr /= addKn; have /andP[x1 x2] := Ht1 j jm.
  exact: (valatE wf1 D01 e0 0 x1 x2 HX).
rewrite /= -/D; set c0 := solve _ _ _; set N := (bs_ncoef s1 * D)%N in c0 *.
have [s2 h2 _] := @setCoefficientVectorE _ s1 (DVec (D * bs_ncoef s1) c0) erefl.
have [X eX HX] := set_flat h2; exists (with_coef s1 X); first by rewrite mulnC in h2; rewrite h2 eX.
have bz (v : vec F) : bil N N v zerom v = 0 by apply: bil0.
split; first by split=> //; apply: wf_with_coef.
(* the cost is the residual of the stacked system *)
have cost c Y E : flat_of s1 c Y -> fit_cost2 eps (with_coef s1 Y) times pts lambda E ->
  E = qcost ((K2 + dm_cols pts) * D) N A b zerom c.
  move=> HY [v [a [Hv Ha ->]]]; rewrite /qcost bz addr0 [in RHS]fsum_nested [in RHS]fsum_cat [LHS]addrC.
  congr (_ + _); last first.
    apply: eq_fsum => i im; apply: eq_fsum => r rD.
    rewrite HA ?Hb ?ltn_add2l // /T /w ltnNge leq_addr /= addKn; congr ((_ - _) ^+ 2).
    have /andP[x1 x2] := Ht1 i im; have [v' hv' Hv'] := valatE wf1 D01 e0 0 x1 x2 HY.
    by rewrite Hv' //; move: hv'; rewrite -[evalD _ _ _ _]/(eval eps (with_coef s1 Y) (times i)) Hv // => -[->].
  rewrite -/k -/n /= fsum_mull; apply: eq_fsum => i iK; rewrite fsum_mull; apply: eq_fsum => r rD.
  have iK' : (i < K2 + dm_cols pts)%N by apply: leq_trans iK _; exact: leq_addr.
  rewrite HA ?Hb // /T /w; rewrite -/K2 in iK; rewrite iK subr0 exprMn; congr (_ * _ ^+ 2).
  have i1 : (k - 1 <= k - 1 + i)%N by exact: leq_addr.
  have i2 : (k - 1 + i < n - k + 1)%N by rewrite -eK in iK; move: iK hk hn; clear; lia.
  have [x1 x2] := knb _ i1 i2; have [v' hv' Hv'] := valatE wf1 D01 e0 2 x1 x2 HY.
  rewrite Hv' //; move: hv'; rewrite -[kn s1 _]/(kn (with_coef s1 Y) _) Ha => [[->] //|].
  by rewrite /= -/k -/n; move: i1 i2 hk; clear; lia.
have costX Y : exists E, fit_cost2 eps (with_coef s1 Y) times pts lambda E.
  have wfY := wf_with_coef wf1 Y.
  have ok x d : tmin s1 <= x -> x <= tmax s1 -> exists v, evalD eps (with_coef s1 Y) x d = Ok v.
    move=> x1 x2; have [|j seg] := segment_exists wfY e0 x1 (x := x).
      by apply: le_lt_trans x2 _; rewrite ltr_addl.
    by have [u [P [_ _ _ [v hv _] _]]] := Phi_entries wfY d seg; exists v.
  pose pick o : vec F := if o is Ok v then v else zerov.
  eexists; exists (fun i => pick (eval eps (with_coef s1 Y) (times i))),
    (fun i => pick (evalD eps (with_coef s1 Y) (kn s1 i) 2)); split; last by reflexivity.
    by move=> i im; have /andP[x1 x2] := Ht1 i im; have [v] := ok _ 0%N x1 x2; rewrite /eval => ->.
  move=> i /= /andP[i1 i2]; have [x1 x2] : tmin s1 <= kn s1 i /\ kn s1 i <= tmax s1.
    by apply: knb; move: i1 i2; rewrite -/k -/n; clear; lia.
  by have [v] := ok _ 2%N x1 x2 => ->.
have [E hE] := costX X; exists E => // c s'' E'' hc hE''.
have cs : dv_size c = (D * bs_ncoef s1)%N.
  by move: hc; rewrite /setCoefficientVector /sm_assert; case: eqP.
case: c cs hc => cn c /= -> hc.
have [Y eY HY] := @set_flat _ (with_coef s1 X) c s'' hc.
move: hE''; rewrite eY with_coefK => hE''.
rewrite (cost _ _ _ HX hE) (cost c Y _ HY hE''); apply: normal_min => // [v|i iN].
  by rewrite bz.
have cE : mulv N (mulm ((K2 + dm_cols pts) * D) (trm A) A) c0 i
   = mulv ((K2 + dm_cols pts) * D) (trm A) b i.
  apply: exact => //.
  have [//||x Hx] := @normal_solvable _ ((K2 + dm_cols pts) * D) N A b zerom.
    by move=> v; rewrite bz.
  by exists x => j jN; rewrite -Hx //; apply: eq_mulv => // z _; rewrite addr0.
by rewrite -cE; apply: eq_mulv => // z _; rewrite addr0.
Qed.
End Init.
