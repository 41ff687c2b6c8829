(* The curve of a manifold spline: generic evaluation, appending, Jacobians. *)
From mathcomp Require Import all_ssreflect all_algebra.
From mathcomp.algebra_tactics Require Import ring.
From mathcomp.zify Require Import zify.
From Verif Require Import Prelude CoxDeBoor CoxDeBoorProofs BSplineModel BSplineSpec
  BSplineProofs BSplineEvalProofs BSplineMoreProofs BSplineRemoveProofs BSplineAppendProofs
  DMModel DMSpec DMProofs DMConstructProofs DMAppendProofs DMEvalProofs DMAccessProofs.
Set Implicit Arguments.
Unset Strict Implicit.
Unset Printing Implicit Defensive.
Import GRing.Theory Num.Theory Order.Theory.
Local Open Scope ring_scope.

Section Curve.
Variables (F : realFieldType) (T : realDomainType).
Variables (dbl : T -> F) (one : T).
Hypothesis et : exact_time dbl one.
Notation sc := (sec dbl one).

Lemma cum_weightE k kps t i d j : (j <= k)%N ->
  fsum (k - j) (fun c => seg_weight dbl one k kps t i d (j + c)) = cum_weight dbl one k kps t i d j.
Proof.
move=> jk; rewrite /cum_weight fsumE -[in RHS](add0n j) big_addn big_mkord.
by apply: eq_bigr => c _; rewrite addnC.
Qed.

Lemma evalGeneric_lie (mf : manifold F) k kps t i nc np : good k kps -> is_segment k kps t i ->
  (np <= k.+1)%N ->
  dm_evalGeneric dbl one mf nc np (canon dbl k kps) (ev_of dbl k kps t i) =
  Ok (lie_curve mf (cum_weight dbl one k kps t i 0)
        (fun j => (nth kp0 kps (i.+1 - k + j)).2) (k - 1)).
Proof.
move=> gd sg npk; have [i1 i2 i3 i4] := sg; have /and3P[k0 sz _] := gd.
rewrite /dm_evalGeneric; have [cum -> Hc] := getLocalCumE et gd 0 nc sg npk.
rewrite [ev_first _]/= [obind _ _]/= size_canon /ub_unless.
have -> : (i.+1 - k < size kps)%N by move: i2 k0; clear; lia.
set P := fun j => (nth kp0 kps (i.+1 - k + j)).2.
set b := cum_weight _ _ _ _ _ _ _.
have cumE j : (0 < j)%N -> (j < k)%N -> cum j = b j.
  by move=> j0 jk; rewrite /b -cum_weightE ?(ltnW jk) // Hc // gtn_eqF.
set body := (X in oloop 1 _ X).
set p0 := sg_pt _.
have p0E : p0 = P 0%N.
  by rewrite /p0 canon_pt ?addn0 //; [rewrite /P addn0|move: i2 k0; clear; lia].
have [st' -> [Hst _]] : exists2 st', oloop 1 k body (p0, p0) = Ok st' &
   st'.1 = lie_curve mf b P (k - 1) /\ st'.2 = P (k - 1)%N.
  apply: (oloop_ind (I := fun q (st : vec F * vec F) =>
     st.1 = lie_curve mf b P (q - 1) /\ st.2 = P (q - 1)%N)) => //.
  move=> q [p l] /= /andP[q1 qk] [Hp Hl]; rewrite /body.
  have -> : (i.+1 - k + q < size kps)%N by move: i2 qk i1; clear; lia.
  rewrite canon_pt; last by move: i2 qk i1; clear; lia.
  rewrite -/(P q) subn1 /= Hl Hp cumE //.
  have qE : q = (q - 1).+1 by move: q1; clear; lia.
  have bqE : lie_curve mf b P q = if b q == 0 then lie_curve mf b P (q - 1)
    else mf_exp mf (lie_curve mf b P (q - 1)) (fun r => mf_log mf (P (q - 1)%N) (P q) r * b q).
    by rewrite [in LHS]qE /= -qE.
  by rewrite bqE; case: eqP => b0; (eexists; first by reflexivity); split.
by case: st' Hst => v l /= ->.
Qed.

(* Two knot lists that agree on a prefix have the same curve there. *)
Section Prefix.
Variables (k : nat) (kps kps' : seq (T * vec F)).
Hypotheses (gd : good k kps) (gd' : good k kps').
Notation n := (size kps).
Hypothesis szs : (n <= size kps')%N.
Hypothesis same_knot : forall j, (j < n)%N -> kp_knot kps' j = kp_knot kps j.
Hypothesis same_pt : forall j, (j < n - k)%N -> (nth kp0 kps' j).2 = (nth kp0 kps j).2.
Let k0 : (0 < k)%N. Proof. by case/and3P: gd. Qed.
Let sz : (2 * k <= n)%N. Proof. by case/and3P: gd. Qed.

Lemma prefix_basis i c : (k <= i.+1)%N -> (i + k < n)%N -> (c < k)%N ->
  basis_poly (fun j => sc (kp_knot kps' j)) i k.-1 (i.+1 - k + c) =
  basis_poly (fun j => sc (kp_knot kps j)) i k.-1 (i.+1 - k + c).
Proof.
move=> i1 i2 ck; case: (posnP k.-1) => [e|n0]; first by rewrite e !basis_poly0.
have -> : (i.+1 - k = i - k.-1)%N by move: i1 k0; clear; lia.
apply: (basis_poly_ext (N := size kps') (N' := n)) => //.
- by move=> a b ab bn; apply: (st_mono et gd').
- by move=> a b ab bn; apply: (st_mono et gd).
- by apply: (seg_pos et gd'); move: i2 szs k0; clear; lia.
- by move: ck; clear; lia.
- by move: i1; clear; lia.
- by move: i2 szs; clear; lia.
- by move: i2; clear; lia.
- by move=> j _ j2; rewrite same_knot //; move: j2 i2; clear; lia.
Qed.

Lemma prefix_weight t i d c : (k <= i.+1)%N -> (i + k < n)%N -> (c < k)%N ->
  seg_weight dbl one k kps' t i d c = seg_weight dbl one k kps t i d c.
Proof. by move=> i1 i2 ck; rewrite /seg_weight prefix_basis. Qed.

Lemma prefix_piece r i : (k <= i.+1)%N -> (i + k < n)%N ->
  dm_piece dbl one k kps' r i = dm_piece dbl one k kps r i.
Proof.
move=> i1 i2; rewrite /dm_piece.
have h1 : (k.-1 <= i)%N by move: i1; clear; lia.
have h2 : (i < n - k)%N by move: i2; clear; lia.
rewrite !curve_piece_local //; last by move: h2 szs; clear; lia.
apply: eq_fsum => c ck; have ck' : (c < k)%N by move: ck k0; clear; lia.
have e : (i - k.-1 = i.+1 - k)%N by move: i1 k0; clear; lia.
rewrite e prefix_basis //; congr (_ *: _); rewrite same_pt //.
by move: i2 i1 ck'; clear; lia.
Qed.

Lemma prefix_segment t i : is_segment k kps t i -> t < kp_knot kps (n - k) ->
  is_segment k kps' t i.
Proof.
case=> i1 i2 i3 i4 lt.
have in1 : (i < n)%N by move: i2; clear; lia.
have in2 : (i.+1 < n)%N by move: i2 k0; clear; lia.
split=> //; first by move: i2 szs; clear; lia.
  by rewrite same_knot.
left; rewrite same_knot //; case: i4 => // -[e te]; move: lt; rewrite te.
have -> : (n - k = i.+1)%N by move: e; clear; lia.
by rewrite ltxx.
Qed.

(* the junction knot belongs to the next segment of the longer spline *)
Lemma prefix_segment_end : (n < size kps')%N ->
  is_segment k kps' (kp_knot kps (n - k)) (n - k).
Proof.
move=> lt; have h : (n - k < n)%N by move: sz k0; clear; lia.
have -> : kp_knot kps (n - k) = kp_knot kps' (n - k) by rewrite same_knot.
split=> //; try (move: sz k0 lt; clear; lia).
by left; apply: (kk_lt gd') => //; move: lt sz k0; clear; lia.
Qed.

Lemma piece_join r d i : (d.+1 < k)%N -> (k <= i.+1)%N -> (i.+1 + k < size kps')%N ->
  (dm_piece dbl one k kps' r i.+1)^`(d).[sc (kp_knot kps' i.+1)] =
  (dm_piece dbl one k kps' r i)^`(d).[sc (kp_knot kps' i.+1)].
Proof.
move=> dk i1 i2; rewrite /dm_piece /curve_piece !raddf_sum !horner_sum.
apply: eq_bigr => j _ /=; rewrite !derivnZ !hornerZ; congr (_ * _).
symmetry; apply: (@basis_poly_cont _ (fun j => sc (kp_knot kps' j)) (size kps')).
- by move=> a b ab bn; apply: (st_mono et gd').
- by move: dk; clear; lia.
- by move: i2; clear; lia.
- by apply: (seg_pos et gd'); move: i2; clear; lia.
- by apply: (seg_pos et gd'); move: i2 k0; clear; lia.
Qed.

(* evaluation of the longer spline on the interval of the shorter one *)
Lemma prefix_evalD t d imax np : kp_knot kps (k - 1) <= t -> t <= kp_knot kps (n - k) ->
  (t < kp_knot kps (n - k)) || (d.+1 < k)%N -> (np <= k.+1)%N ->
  (if imax is Some mx then (d <= mx)%N else true) ->
  exists ev ev' v v', [/\ dm_evaluator dbl (canon dbl k kps) t = Ok ev,
    dm_evaluator dbl (canon dbl k kps') t = Ok ev',
    eu_evalD dbl one imax np (canon dbl k kps) ev d = Ok v,
    eu_evalD dbl one imax np (canon dbl k kps') ev' d = Ok v' & forall r, v' r = v r].
Proof.
move=> t1 t2 td npk hd; have [i sg] := segment_ex gd t1 t2.
have [i1 i2 i3 i4] := sg.
have [v hv Hv] := eu_evalDE et gd sg npk hd.
case: (ltP t (kp_knot kps (n - k))) => [lt|ge].
  have sg' := prefix_segment sg lt.
  have [v' hv' Hv'] := eu_evalDE et gd' sg' npk hd.
  exists (ev_of dbl k kps t i), (ev_of dbl k kps' t i), v, v'; split=> //.
  - exact: evaluatorE.
  - exact: evaluatorE.
  - by move=> r; rewrite Hv Hv' prefix_piece.
have te : t = kp_knot kps (n - k) by apply/eqP; rewrite eq_le t2 ge.
have dk : (d.+1 < k)%N by move: td; rewrite ltNge ge.
have [big|small] := ltnP n (size kps'); last first.
  have en : size kps' = n by apply/eqP; rewrite eqn_leq small szs.
  have sg' : is_segment k kps' t i.
    split=> //; first by rewrite en.
      by rewrite same_knot //; move: i2; clear; lia.
    by rewrite same_knot ?en //; move: i2 k0; clear; lia.
  have [v' hv' Hv'] := eu_evalDE et gd' sg' npk hd.
  exists (ev_of dbl k kps t i), (ev_of dbl k kps' t i), v, v'; split=> //.
  - exact: evaluatorE.
  - exact: evaluatorE.
  - by move=> r; rewrite Hv Hv' prefix_piece.
have sg' : is_segment k kps' t (n - k) by rewrite te; apply: prefix_segment_end.
have [v' hv' Hv'] := eu_evalDE et gd' sg' npk hd.
exists (ev_of dbl k kps t i), (ev_of dbl k kps' t (n - k)), v, v'; split=> //.
- exact: evaluatorE.
- exact: evaluatorE.
move=> r; rewrite Hv Hv'.
have ie : i = (n - k - 1)%N.
  apply: (segment_unique gd sg); split; try (move: sz k0; clear; lia).
    by rewrite te; apply: (kk_le gd); move: sz k0; clear; lia.
  by right; split; [move: sz k0; clear; lia|rewrite te; congr kp_knot; move: sz k0; clear; lia].
have e : (n - k = i.+1)%N by rewrite ie; move: sz k0; clear; lia.
have tE : sc t = sc (kp_knot kps' i.+1).
  by rewrite te e same_knot //; move: i2 k0; clear; lia.
rewrite e tE piece_join //; last by move: e big sz k0; clear; lia.
by rewrite prefix_piece.
Qed.

Lemma prefix_generic (mf : manifold F) t nc np : kp_knot kps (k - 1) <= t ->
  t < kp_knot kps (n - k) -> (np <= k.+1)%N ->
  exists ev ev' v, [/\ dm_evaluator dbl (canon dbl k kps) t = Ok ev,
    dm_evaluator dbl (canon dbl k kps') t = Ok ev',
    dm_evalGeneric dbl one mf nc np (canon dbl k kps) ev = Ok v &
    dm_evalGeneric dbl one mf nc np (canon dbl k kps') ev' = Ok v].
Proof.
move=> t1 t2 npk; have [i sg] := segment_ex gd t1 (ltW t2).
have [i1 i2 i3 i4] := sg; have sg' := prefix_segment sg t2.
exists (ev_of dbl k kps t i), (ev_of dbl k kps' t i); eexists; split.
- exact: evaluatorE.
- exact: evaluatorE.
- exact: evalGeneric_lie.
rewrite evalGeneric_lie //; congr Ok.
have [b bE] : exists b, b = cum_weight dbl one k kps' t i 0 by eexists.
have [c cE] : exists c, c = cum_weight dbl one k kps t i 0 by eexists.
have bc j : (j < k)%N -> b j = c j.
  move=> jk; rewrite bE cE /cum_weight !big_nat; apply: eq_bigr => x /andP[_ xk].
  exact: prefix_weight.
rewrite -bE -cE; have : (k - 1 < k)%N by move: k0; clear; lia.
have pe j : (j < k)%N -> (nth kp0 kps' (i.+1 - k + j)).2 = (nth kp0 kps (i.+1 - k + j)).2.
  by move=> jk; rewrite same_pt //; move: jk i1 i2; clear; lia.
elim: (k - 1)%N => [|q IH] qk; first by rewrite /= pe.
by rewrite /= bc // IH ?(ltnW qk) // !pe // ltnW.
Qed.
End Prefix.

(* appending keeps the curve *)
Lemma append_prefix (mf : manifold F) k (kps : seq (T * vec F)) ts value : good k kps ->
  [/\ (size kps <= size (append_points mf k kps ts value))%N,
      (forall j, (j < size kps)%N ->
        kp_knot (append_points mf k kps ts value) j = kp_knot kps j)
    & (forall j, (j < size kps - k)%N ->
        (nth kp0 (append_points mf k kps ts value) j).2 = (nth kp0 kps j).2)].
Proof.
move=> gd; have nthE j : (j < size kps)%N -> nth kp0 (append_points mf k kps ts value) j =
    ((nth kp0 kps j).1, if (size kps - k <= j < size kps - k + size ts)%N
       then odflt (nth kp0 kps j).2 value else (nth kp0 kps j).2).
  move=> h; rewrite nth_mkseq ?nth_cat ?h //.
  by rewrite size_cat; apply: leq_trans h (leq_addr _ _).
split; first by rewrite size_append leq_addr.
  by move=> j h; rewrite /kp_knot nthE.
move=> j h; rewrite nthE; last by move: h; clear; lia.
by rewrite /= leqNgt h.
Qed.
End Curve.

Section Scratch.
Variables (F : realFieldType) (T : realDomainType).
Variables (dbl : T -> F) (mf : manifold F).
Implicit Types kps : seq (T * vec F).

(* adding the points one by one gives back the list *)
Lemma knot_points_vertices kps : increasing kps -> all (fun tp => mf_in mf tp.2) kps ->
  knot_points mf [seq AddVertex tp.1 tp.2 | tp <- kps] = kps.
Proof.
move=> inc ins; set os := [seq _ | tp <- kps].
have acc : all (accepted mf) os by rewrite all_map.
have keys : [seq cop_time o | o <- os & accepted mf o] = map fst kps.
  by rewrite (all_filterP acc) -map_comp.
have un : uniq (map fst kps) by apply: sorted_uniq_keys.
have kl : knot_list mf os = map fst kps.
  rewrite /knot_list keys undup_id //; apply: sorted_sort; first exact: le_trans.
  by move: inc; rewrite /increasing lt_sorted_uniq_le => /andP[].
apply: (@eq_from_nth _ kp0); first by rewrite size_knot_points kl size_map.
move=> i; rewrite size_knot_points kl size_map => ik.
rewrite /knot_points kl -map_comp (nth_map kp0) //= /first_point.
have -> : find (fun o => accepted mf o && (cop_time o == (nth kp0 kps i).1)) os = i.
  rewrite /os find_map.
  have hi : has (preim (fun tp : T * vec F => AddVertex tp.1 tp.2)
      (fun o => accepted mf o && (cop_time o == (nth kp0 kps i).1))) kps.
    apply/(has_nthP kp0); exists i => //=; rewrite eqxx andbT.
    by have /(all_nthP kp0) /(_ _ ik) := ins.
  set q := find _ _; have qn : (q < size kps)%N by rewrite -has_find.
  have := nth_find kp0 hi; rewrite -/q /= => /andP[_ /eqP qt].
  by apply/eqP; rewrite -(nth_uniq 0 _ _ un) ?size_map // !(nth_map kp0) // qt.
by rewrite /os (nth_map kp0) //; case: (nth _ _ _).
Qed.

Lemma scratch k kps : good k kps -> all (fun tp => mf_in mf tp.2) kps ->
  dm_init dbl (run_cops mf (dm_new F T k) [seq AddVertex tp.1 tp.2 | tp <- kps]) =
  MRet (canon dbl k kps) tt.
Proof.
move=> gd ins; have /and3P[_ _ inc] := gd.
by rewrite constructE knot_points_vertices // initE.
Qed.

(* knots beyond the others, added before init instead of appended afterwards *)
Lemma knot_list_cat (os : seq (cop F T)) ts : sorted <%R (knot_list mf os ++ ts) ->
  knot_list mf (os ++ [seq AddKnot F t | t <- ts]) = knot_list mf os ++ ts.
Proof.
move=> srt; apply: (irr_sorted_eq lt_trans ltxx) => //; first exact: sorted_knot_list.
move=> t; rewrite /knot_list mem_sort mem_undup mem_cat mem_sort mem_undup.
rewrite filter_cat map_cat mem_cat; congr (_ || _).
by rewrite filter_map -map_comp /= filter_predT map_id.
Qed.

Lemma mem_times (os : seq (cop F T)) t : (t \in knot_list mf os) =
  has (fun o => accepted mf o && (cop_time o == t)) os.
Proof.
rewrite /knot_list mem_sort mem_undup; elim: os => [//|o os IH] /=.
by case: (accepted mf o) => //=; rewrite in_cons IH eq_sym.
Qed.

Lemma knot_points_cat k (os : seq (cop F T)) ts : (0 < k)%N -> (k <= size (knot_list mf os))%N ->
  sorted <%R (knot_list mf os ++ ts) ->
  knot_points mf (os ++ [seq AddKnot F t | t <- ts]) =
  append_points mf k (knot_points mf os) ts None.
Proof.
move=> k0 kn srt.
have un := sorted_uniq_keys srt.
have e : append_points mf k (knot_points mf os) ts None =
    knot_points mf os ++ [seq (t, mf_default mf) | t <- ts].
  apply: (@eq_from_nth _ kp0); first by rewrite size_append size_cat size_map.
  move=> i; rewrite size_append => h; rewrite nth_mkseq; last by rewrite size_cat size_map.
  by rewrite /=; case: (nth _ _ _) => a b /=; case: ifP.
rewrite e {1}/knot_points knot_list_cat // map_cat; congr (_ ++ _).
  apply/eq_in_map => t tk; congr (_, _); rewrite /first_point find_cat.
  have hi := tk; rewrite mem_times in hi.
  by rewrite hi nth_cat -has_find hi.
apply/eq_in_map => t tt'; congr (_, _); rewrite /first_point find_cat.
have tn : t \notin knot_list mf os.
  move: un; rewrite cat_uniq => /and3P[_ /hasPn h _]; exact: h.
rewrite mem_times in tn; rewrite (negbTE tn).
rewrite nth_cat ltnNge leq_addr /= addKn.
set q := find _ _; have [qn|qn] := ltnP q (size ts).
  by rewrite (nth_map 0).
by rewrite nth_default ?size_map.
Qed.
End Scratch.
