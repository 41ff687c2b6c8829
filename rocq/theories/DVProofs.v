From mathcomp Require Import all_ssreflect all_algebra.
From mathcomp.algebra_tactics Require Import ring.
From mathcomp.zify Require Import zify.
From Verif Require Import Prelude CoxDeBoor CoxDeBoorProofs BSplineModel BSplineSpec
  BSplineProofs BSplineEvalProofs BSplineAccessProofs BSplineCoefProofs BSplineLocalProofs
  PoseModel PoseSpec DVModel DVSpec.
Set Implicit Arguments.
Unset Strict Implicit.
Unset Printing Implicit Defensive.
Import GRing.Theory Num.Theory Order.Theory.
Local Open Scope ring_scope.

Lemma size_modify A i (f : A -> A) s : size (modify i f s) = size s.
Proof. by elim: s i => [|x s IH] [|i] //=; rewrite IH. Qed.
Lemma nth_modify A (d : A) i f s j : (j < size s)%N ->
  nth d (modify i f s) j = if j == i then f (nth d s j) else nth d s j.
Proof. by elim: s i j => [|x s IH] [|i] [|j] //= js; rewrite ?IH // eqSS. Qed.
Lemma map_modify A B (g : A -> B) i f s : (forall x, g (f x) = g x) ->
  map g (modify i f s) = map g s.
Proof. by move=> h; elim: s i => [|x s IH] [|i] //=; rewrite ?h ?IH. Qed.

Lemma omap_seq_ok A B (f : A -> outcome B) (g : A -> B) (P : pred A) s :
  all P s -> (forall x, P x -> f x = Ok (g x)) -> omap_seq f s = Ok (map g s).
Proof. by elim: s => [|x s IH] //= /andP[Px Ps] h; rewrite h //= IH. Qed.
Lemma omap_seq_inv A B (f : A -> outcome B) s ys : omap_seq f s = Ok ys ->
  size ys = size s /\ forall d d' i, (i < size s)%N -> f (nth d s i) = Ok (nth d' ys i).
Proof.
elim: s ys => [|x s IH] ys /=; first by case=> <-.
case Ef: (f x) => [y|e|] //=; case Es: (omap_seq f s) => [zs|e|] //= [<-].
have [h1 h2] := IH _ Es; split=> [|d d' [|i]] /=; rewrite ?h1 //.
by rewrite ltnS => /h2; apply.
Qed.

Section DVP.
Variable F : realFieldType.
Variable eps : F.
Variable D : nat.
Variables qr ldlt : nat -> mat F -> vec F -> vec F.
Implicit Type st : spline_dv F.
Notation d0 := (MappedDV 0 0 0).

Lemma add_knots_size (s : bspline F) t junk n p0 s1 NT :
  addCurveSegment_knots eps s t junk n = Ok (p0, s1, NT) ->
  bs_ncoef s1 = (bs_ncoef s).+1 /\ bs_dim s1 = bs_dim s.
Proof.
rewrite /addCurveSegment_knots; case: (t_max s) => [tm|e|] //=.
rewrite /sm_assert; case: ifP => // _; case: ifP => // _; case: ifP => // _.
case: (timeInterval_i s _) => [[a b]|e|] //=; case: (eval eps s b) => [v|e|] //=.
case: (computeTIndex eps s a) => [[u km]|e|] //=; rewrite /ub_unless; case: ifP => // _.
rewrite /setKnotsAndCoefficients; case: (verifyKnotSequence _ _) => [u'|e|] //=.
by rewrite /sm_assert; case: ifP => //= _ [_ <- _].
Qed.

Lemma add_size (s s' : bspline F) t p junk : addCurveSegment eps qr s t p junk = Ok s' ->
  bs_ncoef s' = (bs_ncoef s).+1 /\ bs_dim s' = bs_dim s.
Proof.
rewrite /addCurveSegment; case E: (addCurveSegment_knots _ _ _ _ _) => [[[p0 s1] NT]|e|] //=.
have [h1 h2] := add_knots_size E.
case: (timeInterval_i s1 NT) => [[a b]|e|] //=.
case: (localCoefficientVector eps s1 a) => [lc|e|] //=.
case: (Phi eps s1 a 0) => [P0|e|] //=; case: (Phi eps s1 b 0) => [P1|e|] //= [<-].
by rewrite /write_last_two /bs_ncoef /bs_dim /= h1.
Qed.

Lemma add2_size (s s' : bspline F) t p l junk : addCurveSegment2 eps ldlt s t p l junk = Ok s' ->
  bs_ncoef s' = (bs_ncoef s).+1 /\ bs_dim s' = bs_dim s.
Proof.
rewrite /addCurveSegment2; case E: (addCurveSegment_knots _ _ _ _ _) => [[[p0 s1] NT]|e|] //=.
have [h1 h2] := add_knots_size E.
case: (timeInterval_i s1 NT) => [[a b]|e|] //=.
case: (localCoefficientVector eps s1 a) => [lc|e|] //=.
case: (Phi eps s1 a 0) => [P0|e|] //=; case: (Phi eps s1 b 0) => [P1|e|] //=.
case: (Phi eps s1 a 2) => [P2|e|] //=; case: (Phi eps s1 b 2) => [P3|e|] //= [<-].
by rewrite /write_last_two /bs_ncoef /bs_dim /= h1.
Qed.

Lemma maps_colE st i c : maps_col st i c <->
  [/\ (i < size (sd_dvs st))%N, md_buf (nth d0 (sd_dvs st) i) = sd_buf st
    & md_col (nth d0 (sd_dvs st) i) = c].
Proof.
rewrite /maps_col /dv_designVariable /sm_assert; split=> [[d]|[h1 h2 h3]].
  by case: ifP => // h [<-] [? ?].
by rewrite h1; exists (nth d0 (sd_dvs st) i).
Qed.

(* the loop of updateMap calls *)
Lemma update_maps_ok n st : bs_dim (sd_spline st) = D -> (n <= bs_ncoef (sd_spline st))%N ->
  (n <= size (sd_dvs st))%N -> exists2 st', update_maps D n st = Ok st' &
  [/\ sd_spline st' = sd_spline st, sd_buf st' = sd_buf st, sd_next st' = sd_next st,
      dv_ids st' = dv_ids st & forall i, (i < size (sd_dvs st))%N ->
        if (i < n)%N then maps_col st' i i
        else nth d0 (sd_dvs st') i = nth d0 (sd_dvs st) i].
Proof.
move=> hD hn hs.
pose I m st' := [/\ sd_spline st' = sd_spline st, sd_buf st' = sd_buf st,
  sd_next st' = sd_next st, dv_ids st' = dv_ids st & forall i, (i < size (sd_dvs st))%N ->
        if (i < m)%N then maps_col st' i i
        else nth d0 (sd_dvs st') i = nth d0 (sd_dvs st) i].
rewrite /update_maps; apply: (@oloop_ind _ 0 n _ st I) => //.
move=> i st1 /andP[_ im] [h1 h2 h3 h4 h5].
have sz : size (sd_dvs st1) = size (sd_dvs st).
  by rewrite -(size_map (@md_id) (sd_dvs st1)) -/(dv_ids st1) h4 size_map.
rewrite /fixedSizeVv h1 /sm_assert /ub_unless (leq_trans im hn) hD eqxx /= sz (leq_trans im hs).
eexists; first by reflexivity.
split=> //=; first by rewrite /dv_ids /= map_modify.
move=> j js; have := h5 _ js.
case: ltngtP => [ji|ij|->].
- rewrite (ltn_trans ji (ltnSn i)) => /maps_colE [m1 m2 m3].
  by apply/maps_colE; rewrite /= size_modify sz nth_modify ?sz // ltn_eqF.
- by rewrite ltnS leqNgt ij /= nth_modify ?sz // gtn_eqF.
have im' := leq_trans im hs.
by move=> _; rewrite ltnSn; apply/maps_colE; rewrite /= size_modify sz nth_modify ?sz ?eqxx.
Qed.

Lemma dv_new_ok (s : bspline F) : bs_dim s = D -> exists st, [/\ dv_new D s = Ok st,
  sd_spline st = s, in_step D st & dv_ids st = iota 0 (bs_ncoef s)].
Proof.
move=> hD; rewrite /dv_new.
pose I n st := [/\ sd_spline st = s, sd_next st = n, size (sd_dvs st) = n,
  dv_ids st = iota 0 n & forall i, (i < n)%N -> maps_col st i i].
have [|i st /andP[_ im] [h1 h2 h3 h4 h5]|st E [h1 h2 h3 h4 h5]] :=
   @oloop_ind _ 0 (bs_ncoef s) (fun i st => push_dv D st i) (SplineDV s 0 [::] 0) I (leq0n _).
- by split.
- rewrite /push_dv /fixedSizeVv h1 im /sm_assert /ub_unless hD eqxx /=.
  eexists; first by reflexivity.
  split=> //=; rewrite ?h2 ?size_rcons ?h3 //.
    rewrite /dv_ids /= map_rcons -/(dv_ids st) h4 /= -cats1.
    by rewrite -[_ :: iota 1 i]/(iota 0 i.+1) -addn1 iotaD.
  move=> j; rewrite ltnS => ji; apply/maps_colE; rewrite /= size_rcons nth_rcons h3 ltnS ji.
  case: ltngtP ji => // ji _.
  by have /maps_colE [] := h5 _ ji.
exists st; split=> //; split; rewrite ?h1 ?h3 //.
  by rewrite h4 iota_uniq.
by move=> p; rewrite h4 mem_iota add0n h2 => /andP[].
Qed.

(* after the spline call of addSegment *)
Lemma after_add_ok st s' : in_step D st -> bs_dim s' = D ->
  bs_ncoef s' = (bs_ncoef (sd_spline st)).+1 -> exists st',
  [/\ after_add D st s' = Ok st', sd_spline st' = s', in_step D st'
    & dv_ids st' = rcons (dv_ids st) (sd_next st)].
Proof.
move=> [h1 h2 h3 h4 h5] hD hn; rewrite /after_add /push_dv /fixedSizeVv /= hn /=.
rewrite ltnSn hD eqxx /=.
set st1 := SplineDV _ _ _ _.
have [] := @update_maps_ok (bs_ncoef (sd_spline st)) st1.
- by [].
- by rewrite /= hn.
- by rewrite /= size_rcons h2.
move=> st' E [g1 g2 g3 g4 g5].
have ids : dv_ids st' = rcons (dv_ids st) (sd_next st).
  by rewrite g4 /dv_ids /= map_rcons.
have sz : size (sd_dvs st') = (bs_ncoef (sd_spline st)).+1.
  rewrite -(size_map (@md_id) (sd_dvs st')) -/(dv_ids st') ids size_rcons size_map h2 //.
exists st'; split=> //; split; rewrite ?g1 //=; first by rewrite sz hn.
- move=> i; rewrite hn => ilt; have := g5 i; rewrite /= size_rcons h2 => /(_ ilt).
  case: ifP => // ige nE; apply/maps_colE; rewrite sz ilt nE g2 /=.
  have -> : i = size (sd_dvs st) by move: ilt ige; rewrite h2; clear; lia.
  by rewrite nth_rcons ltnn eqxx /= h2.
- rewrite ids rcons_uniq h4 andbT; apply/negP => /h5; by rewrite ltnn.
- by move=> p; rewrite ids g3 /= mem_rcons inE ltnS => /predU1P[->//|/h5 /ltnW].
Qed.

Lemma remove_ok st : in_step D st -> (0 < bs_ncoef (sd_spline st))%N ->
  (0 < size (bs_knots (sd_spline st)))%N -> exists st',
  [/\ dv_removeSegment D st = Ok st', sd_spline st' = removeCurveSegment (sd_spline st),
      in_step D st' & dv_ids st' = behead (dv_ids st)].
Proof.
move=> [h1 h2 h3 h4 h5] c0 k0; rewrite /dv_removeSegment h2 c0 /ub_unless.
set s' := removeCurveSegment _.
have s'n : bs_ncoef s' = (bs_ncoef (sd_spline st)).-1.
  by rewrite /s' /removeCurveSegment c0 k0.
have s'D : bs_dim s' = D by rewrite -h1 /s' /removeCurveSegment c0 k0.
set st1 := SplineDV _ _ _ _.
have [] := @update_maps_ok (bs_ncoef s') st1; first by [].
- by [].
- by rewrite /= size_behead h2 s'n.
move=> st' E [g1 g2 g3 g4 g5].
have ids : dv_ids st' = behead (dv_ids st) by rewrite g4 /dv_ids /= behead_map.
have sz : size (sd_dvs st') = bs_ncoef s'.
  by rewrite -(size_map (@md_id) (sd_dvs st')) -/(dv_ids st') ids size_behead size_map h2 s'n.
exists st'; split=> //; split; rewrite ?g1 //.
- move=> i /= ilt; have := g5 i; rewrite /= size_behead h2 -s'n ilt; exact.
- rewrite ids; by case: (dv_ids st) h4 => //= a l /andP[].
- by move=> p; rewrite ids => /mem_behead /h5; rewrite g3.
Qed.

Notation step := (dv_step eps D qr ldlt).
Notation call := (spline_call eps qr ldlt).

(* every call succeeds exactly when the spline call does (a removal needs a segment) *)
Lemma step_ok st o s' : in_step D st -> call (sd_spline st) o = Ok s' ->
  (is_remove o -> (0 < bs_ncoef (sd_spline st))%N /\ (0 < size (bs_knots (sd_spline st)))%N) ->
  exists st', [/\ step st o = Ok st', sd_spline st' = s', in_step D st'
    & dv_ids st' = if is_remove o then behead (dv_ids st) else rcons (dv_ids st) (sd_next st)].
Proof.
move=> ist; have hD : bs_dim (sd_spline st) = D by case: ist.
case: o => [t p j|t p l j|R t T j|R t T l j|] /=.
- move=> E _; have [h1 h2] := add_size E; rewrite /dv_addSegment E /=.
  by apply: after_add_ok; rewrite ?h2.
- move=> E _; have [h1 h2] := add2_size E; rewrite /dv_addSegment2 E /=.
  by apply: after_add_ok; rewrite ?h2.
- move=> E _; have [h1 h2] := add_size E; rewrite /pdv_addSegment E /=.
  by apply: after_add_ok; rewrite ?h2.
- move=> E _; have [h1 h2] := add2_size E; rewrite /pdv_addSegment2 E /=.
  by apply: after_add_ok; rewrite ?h2.
by move=> [<-] /(_ isT) [c0 k0]; exact: remove_ok.
Qed.

Lemma step_in_step st o st' : in_step D st -> step st o = Ok st' -> in_step D st'.
Proof.
move=> ist E.
case C: (call (sd_spline st) o) => [s'|e|]; last 2 first.
- move: E; case: o C => [t p j|t p l j|R t T j|R t T l j|] //= C.
  + by rewrite /dv_addSegment C.
  + by rewrite /dv_addSegment2 C.
  + by rewrite /pdv_addSegment C.
  + by rewrite /pdv_addSegment2 C.
- move: E; case: o C => [t p j|t p l j|R t T j|R t T l j|] //= C.
  + by rewrite /dv_addSegment C.
  + by rewrite /dv_addSegment2 C.
  + by rewrite /pdv_addSegment C.
  + by rewrite /pdv_addSegment2 C.
have [|st1 [E1 _ h _]] := step_ok ist C; last by move: E; rewrite E1 => -[<-].
case: o E C => //= E _ _.
have h2 : size (sd_dvs st) = bs_ncoef (sd_spline st) by case: ist.
move: E; rewrite /dv_removeSegment h2 /ub_unless; case: ifP => // c0 E; split=> //.
case k0: (0 < size (bs_knots (sd_spline st)))%N => //.
move: E; rewrite /removeCurveSegment k0 /=.
case nc: (bs_ncoef (sd_spline st)) c0 => [//|m] _.
set st1 := SplineDV _ _ _ _.
have [h1 _ _ _ _] := ist.
have sz1 : size (sd_dvs st1) = m by rewrite /st1 /= size_behead h2 nc.
have [] := @update_maps_ok m st1; rewrite ?sz1 //; first by rewrite /= nc.
rewrite /update_maps oloopSr // => st2 -> [g1 g2 _ g4 _] /=.
have sz2 : size (sd_dvs st2) = m.
  by rewrite -(size_map (@md_id) (sd_dvs st2)) -/(dv_ids st2) g4 size_map.
rewrite /fixedSizeVv g1 /= nc ltnSn h1 eqxx /= sz2 ltnn //.
Qed.

Lemma run_in_step os st st' : in_step D st -> dv_run eps D qr ldlt st os = Ok st' -> in_step D st'.
Proof.
elim: os st => [|o os IH] st ist /=; first by case=> <-.
case E: (step st o) => [st1|e|] //=; exact: IH (step_in_step ist E).
Qed.

(* local form of evaluation without assumptions on the state *)
Lemma local_raw (s : bspline F) x d v : evalD eps s x d = Ok v ->
  exists b (w : nat -> F), let k := bs_order s in let D := bs_dim s in [/\
    (b + k <= bs_ncoef s)%N,
    localVvCoefficientVectorIndices eps s x = Ok (iota b k),
    localCoefficientVectorIndices eps s x = Ok (iota (b * D) (k * D)) &
    forall C : mat F, exists v v' J,
     [/\ evalD eps (with_coef s C) x d = Ok v,
         forall r, v r = fsum k (fun j => C r (b + j)%N * w j),
         evalDAndJacobian eps (with_coef s C) x d = Ok (v', J, iota (b * D) (k * D)),
         forall r, v' r = fsum k (fun j => C r (b + j)%N * w j)
       & forall r c, (r < D)%N -> (c < k * D)%N ->
           J r c = (r == (c %% D)%N)%:R * w (c %/ D)%N]].
Proof.
rewrite {1}/evalD; case EU: (computeUAndTIndex eps s x) => [[uv ix]|e|] //=.
case Eu: (computeU s uv ix d) => [u|e|] //=.
case Es: (segment_access s ix) => [b|e|] //= _.
have ET : exists dn, computeTIndex eps s x = Ok (dn, ix).
  move: EU; rewrite /computeUAndTIndex; case: (computeTIndex eps s x) => [[dn i]|e|] //=.
  by case: ifP => _ [_ <-]; exists dn.
have {ET} [dn ET] := ET.
have [ki bE bn] : [/\ (bs_order s <= ix.+1)%N, b = (ix.+1 - bs_order s)%N
    & (b + bs_order s <= bs_ncoef s)%N].
  move: Es; rewrite /segment_access /ub_unless; case: ifP => // ki; case: ifP => // /andP[_ h] [<-].
  by split.
exists b, (mulv (bs_order s) (trm (basis_at s b)) u); set k := bs_order s; set D' := bs_dim s; split=> //.
- by rewrite /localVvCoefficientVectorIndices ET /= ki bE.
- by rewrite /localCoefficientVectorIndices ET /= ki bE.
move=> C.
have h1 : computeUAndTIndex eps (with_coef s C) x = Ok (uv, ix) by exact: EU.
have h2 : computeU (with_coef s C) uv ix d = Ok u by exact: Eu.
have h3 : segment_access (with_coef s C) ix = Ok b.
  by move: Es; rewrite /segment_access.
rewrite /evalD /evalDAndJacobian h1 /= h2 /= h3 /=.
do 3 eexists; split; [by reflexivity| |by reflexivity| |] => [r|r|r c rD cD].
- rewrite /mulv /mulm.
  rewrite (eq_fsum (g := fun q => fsum k (fun c => C r (b + c)%N * (basis_at s b q c * u q)))).
    by rewrite exchange_fsum; apply: eq_fsum => c ck; rewrite -fsum_mull.
  by move=> q _; rewrite fsum_mulr; apply: eq_fsum => c _; rewrite /get_block /trm add0n mulrA.
- by rewrite /mulv; apply: eq_fsum => j jk; rewrite /get_block add0n.
by rewrite (@diag_blocks_loop _ D' k).
Qed.

Lemma dv_pointers_ok st idx : all (fun i => i < size (sd_dvs st))%N idx ->
  dv_pointers st idx = Ok [seq md_id (nth d0 (sd_dvs st) i) | i <- idx].
Proof. by move=> h; apply: omap_seq_ok h _ => i /= ->. Qed.

(* blocks of a Jacobian with k blocks *)
Lemma add_blocks_ok k (J : mat F) ptrs : size ptrs = k ->
  add_blocks D (k * D) J ptrs =
  Ok [seq (ip.2, get_block J 0 (ip.1 * D)) | ip <- zip (iota 0 k) ptrs].
Proof.
move=> sp; rewrite /add_blocks sp.
apply: (@omap_seq_ok _ _ _ _ (fun ip => (ip.1 < k)%N)).
  apply/allP => ip /(map_f fst); rewrite -/unzip1 unzip1_zip ?size_iota ?sp //.
  by rewrite mem_iota add0n.
by move=> ip h; rewrite /ub_unless leq_mul2r h orbT.
Qed.

Lemma nth_blocks k (J : mat F) ptrs q : size ptrs = k -> (q < k)%N ->
  nth (0%N, zerom) [seq (ip.2, get_block J 0 (ip.1 * D)) | ip <- zip (iota 0 k) ptrs] q
  = (nth 0%N ptrs q, get_block J 0 (q * D)).
Proof.
move=> sp qk; rewrite (nth_map (0%N, 0%N)) ?size_zip ?size_iota ?sp ?minnn //.
by rewrite nth_zip ?size_iota ?sp // nth_iota.
Qed.

Lemma nth_ids st i : (i < size (sd_dvs st))%N ->
  nth 0%N (dv_ids st) i = md_id (nth d0 (sd_dvs st) i).
Proof. by move=> h; rewrite (nth_map d0). Qed.

(* update of the variable at index i *)
Lemma dv_update_ok st i dp : in_step D st -> (i < bs_ncoef (sd_spline st))%N ->
  exists st', [/\ dv_update st (nth 0%N (dv_ids st) i) dp = Ok st', in_step D st',
    dv_ids st' = dv_ids st &
    sd_spline st' = with_coef (sd_spline st) (set_col (bs_coef (sd_spline st)) i
      (fun r => bs_coef (sd_spline st) r i + dp r))].
Proof.
move=> ist ic; have [h1 h2 h3 h4 h5] := ist; have /maps_colE [m1 m2 m3] := h3 _ ic.
have fi : find (fun d => md_id d == nth 0%N (dv_ids st) i) (sd_dvs st) = i.
  rewrite -[find _ _]/(find (preim md_id (pred1 (nth 0%N (dv_ids st) i))) (sd_dvs st)).
  by rewrite -find_map -/(dv_ids st) -/(index _ _) index_uniq // size_map.
rewrite /dv_update fi m1 m2 eqxx m3 /=; eexists; split; [by reflexivity| |by []|by []].
by split.
Qed.

Lemma toExpression_inv st t d nd : dv_toExpression eps D st t d = Ok nd ->
  exists2 ptrs, dv_getDesignVariables eps st t = Ok ptrs & nd = Node ptrs t d.
Proof.
rewrite /dv_toExpression; case: (dv_getDesignVariables eps st t) => [ptrs|e|] //=.
by rewrite /sm_assert; case: ifP => // _ [<-]; exists ptrs.
Qed.

Lemma getDesignVariables_ok st t b k : in_step D st -> (b + k <= bs_ncoef (sd_spline st))%N ->
  localVvCoefficientVectorIndices eps (sd_spline st) t = Ok (iota b k) ->
  exists2 ptrs, dv_getDesignVariables eps st t = Ok ptrs &
    size ptrs = k /\ forall q, (q < k)%N -> nth 0%N ptrs q = nth 0%N (dv_ids st) (b + q).
Proof.
move=> [h1 h2 h3 h4 h5] bk E; rewrite /dv_getDesignVariables E /= dv_pointers_ok; last first.
  apply/allP => i; rewrite mem_iota h2; move: bk; clear; lia.
eexists; first by reflexivity.
split=> [|q qk]; first by rewrite size_map size_iota.
rewrite (nth_map 0%N) ?size_iota // nth_iota // nth_ids // h2; move: bk qk; clear; lia.
Qed.

Theorem expression_aligned st t d nd v : in_step D st ->
  dv_toExpression eps D st t d = Ok nd -> node_value eps D st nd = Ok v ->
  let k := bs_order (sd_spline st) in exists b js,
  [/\ localVvCoefficientVectorIndices eps (sd_spline st) t = Ok (iota b k),
      (b + k <= bs_ncoef (sd_spline st))%N,
      node_jacobians eps D st nd = Ok js,
      unzip1 js = [seq nth 0%N (dv_ids st) i | i <- iota b k] &
      forall i dp, (i < bs_ncoef (sd_spline st))%N -> let p := nth 0%N (dv_ids st) i in
        exists st' v', [/\ dv_update st p dp = Ok st', in_step D st',
          node_value eps D st' nd = Ok v' &
          forall r, (r < D)%N -> v' r = v r + predicted D js p dp r]].
Proof.
move=> ist /toExpression_inv [ptrs EP ->]; rewrite /node_value /node_jacobians /=.
case Ev: (evalD eps (sd_spline st) t d) => [v0|e|] //=; have [h1 h2 h3 h4 h5] := ist.
rewrite h1 eqxx /= => -[vE]; rewrite {v0}vE in Ev.
have [b [w [bn lv _ H]]] := local_raw Ev; set k := bs_order (sd_spline st) in bn lv H *.
have := getDesignVariables_ok ist bn lv; rewrite EP => -[_ [<-] [sp hp]].
have [v0 [v' [J [e1 e2 e3 _ e5]]]] := H (bs_coef (sd_spline st)).
rewrite with_coef_id in e1 e3; move: e1; rewrite Ev => -[vE]; rewrite -{v0}vE in e2.
rewrite e3 /= add_blocks_ok //.
set js := map _ _; have sj : size js = k.
  by rewrite size_map size_zip size_iota sp minnn.
have nj q : (q < k)%N -> nth (0%N, zerom) js q = (nth 0%N ptrs q, get_block J 0 (q * D)).
  by move=> qk; exact: nth_blocks.
exists b, js; split=> //.
  apply: (@eq_from_nth _ 0%N); rewrite ?size_map ?size_zip ?size_iota ?sp ?minnn // => q qk.
  rewrite (nth_map (0%N, zerom)) ?sj // nj //= hp // (nth_map 0%N) ?size_iota //.
  by rewrite nth_iota.
move=> i dp ic; set p := nth 0%N (dv_ids st) i; have [st' [u1 u2 u3 u4]] := dv_update_ok dp ist ic.
exists st'; have [h1' _ _ _ _] := u2.
have [v1 [_ [_ [f1 f2 _ _ _]]]] := H (set_col (bs_coef (sd_spline st)) i
      (fun r => bs_coef (sd_spline st) r i + dp r)).
exists v1; split=> //; first by rewrite u4 f1 /= -[bs_dim _]/(bs_dim (sd_spline st)) h1 eqxx.
move=> r rD; rewrite f2 e2 /predicted sj -fsumD; apply: eq_fsum => q qk.
rewrite nj //= hp //.
have bq : (b + q < size (sd_dvs st))%N by rewrite h2; move: bn qk; clear; lia.
have -> : (nth 0%N (dv_ids st) (b + q) == p) = (b + q == i)%N.
  by apply: nth_uniq => //; rewrite size_map // h2.
rewrite (eq_fsum (g := fun c => (c == r)%:R * (w q * dp c))); last first.
  move=> c cD; rewrite /get_block add0n e5 ?h1 //; last first.
    by rewrite -ltn_divLR ?divnMDl ?divn_small ?addn0 //; case: (D) cD.
  by rewrite modnMDl modn_small // divnMDl ?divn_small ?addn0 ?(eq_sym r) ?mulrA //; case: (D) cD.
rewrite fsum_delta // /set_col.
by case: eqP => [->|_]; rewrite ?mul1r ?mul0r ?addr0 // mulrDl [dp r * _]mulrC.
Qed.

(* the Jacobian blocks of a pose node against its Jacobian matrix *)
Theorem pose_blocks_aligned st t d v A (jac : bspline F -> F -> outcome (A * mat F * seq nat))
  a J idx ptrs : in_step D st -> evalD eps (sd_spline st) t d = Ok v ->
  dv_getDesignVariables eps st t = Ok ptrs ->
  jac (sd_spline st) t = Ok (a, J, idx) ->
  localCoefficientVectorIndices eps (sd_spline st) t = Ok idx ->
  exists2 js, pose_node_jacobians D jac st (Node ptrs t d) = Ok js &
    unzip1 js = ptrs /\
    forall dp : nat -> vec F, let dC r i := dp (nth 0%N (dv_ids st) i) r in
    forall r, dir (sd_spline st) J idx dC r = predicted_all D js dp r.
Proof.
move=> ist Ev EP EJ; have [h1 h2 h3 h4 h5] := ist.
have [b [w [bn lv lc _]]] := local_raw Ev.
have := getDesignVariables_ok ist bn lv; rewrite EP => -[_ [<-] [sp hp]].
rewrite lc => -[<-]; rewrite /pose_node_jacobians EJ /= /jcols h1 add_blocks_ok //.
eexists; first by reflexivity.
set k := bs_order (sd_spline st) in bn lv lc sp hp *.
split.
  rewrite /unzip1 -map_comp (@eq_map _ _ _ snd) // -/unzip2 unzip2_zip ?size_iota ?sp //.
move=> dp r; set dC := fun r i : nat => dp (nth 0%N (dv_ids st) i) r; rewrite /dir /predicted_all size_iota size_map size_zip size_iota sp minnn.
rewrite fsum_nested; apply: eq_fsum => q qk; apply: eq_fsum => c cD.
rewrite nth_blocks // [(_, _).2]/= [(_, _).1]/= [get_block _ _ _ _ _]/get_block add0n; congr (_ * _).
have qc : (q * D + c < k * D)%N.
  by rewrite -ltn_divLR ?divnMDl ?divn_small ?addn0 //; case: (D) cD.
rewrite nth_iota // addnA -mulnDl.
have eD : bs_dim (with_coef (sd_spline st) dC) = D by exact: h1.
rewrite -[in X in (_ * X + _)%N]eD coefficientVectorE ?eD //.
  by rewrite /= /dC hp.
by rewrite /bs_ncoef /=; move: bn qk; rewrite /bs_ncoef; clear; lia.
Qed.
End DVP.
