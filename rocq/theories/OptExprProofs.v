(* Expressions on optimisable manifold splines: which variables they name, what their Jacobian
   blocks say, and expressions whose time is itself an expression. *)
From mathcomp Require Import all_ssreflect all_algebra.
From mathcomp.algebra_tactics Require Import ring.
From mathcomp.zify Require Import zify.
From Verif Require Import Prelude CoxDeBoor BSplineModel BSplineSpec BSplineAccessProofs
  DMModel DMSpec DMProofs DMConstructProofs
  DMAppendProofs DMEvalProofs DMAccessProofs DMCurveProofs OptModel OptSpec OptProofs OptWorldProofs.
Set Implicit Arguments.
Unset Strict Implicit.
Unset Printing Implicit Defensive.
Import GRing.Theory Num.Theory Order.Theory.
Local Open Scope ring_scope.
#[local] Arguments pos_of : simpl never.
#[local] Arguments canon : simpl never.
#[local] Arguments fsum : simpl never.

Section Expr.
Variables (F : realFieldType) (T : realDomainType).
Variables (dbl : T -> F) (one : T).
Notation world := (world F T).
Notation opt := (opt F T).
Notation ptr := (ptr T).
Notation obj w a := (nth (opt0 F T) (w_objs w) a).
Implicit Types (w : world) (o : opt) (kps : seq (T * vec F)) (p : ptr).

Definition own_ptrs o kps i n : seq ptr := [seq (op_map o, kp_knot kps j) | j <- iota i n].
Definition chained psize (chain : option (nat * mat F)) (B : mat F) : mat F :=
  if chain is Some (_, C) then mulm psize C B else B.
Definition ptr0 : ptr := (0%N, 0).

Lemma collect_canon o k kps b e : op_sp o = canon dbl k kps -> (b <= e)%N -> (e <= size kps)%N ->
  collect_ptrs o b e = Ok (own_ptrs o kps b (e - b)).
Proof. by move=> h be en; rewrite /collect_ptrs /ub_unless be (seg_ptrs_canon _ h en). Qed.
Lemma getDV_canon o k kps t i : op_sp o = canon dbl k kps -> good k kps -> is_segment k kps t i ->
  opt_getDesignVariables o t = Ok (map Some (own_ptrs o kps (i.+1 - k) k)).
Proof.
move=> e gd sg; have [i1 i2 _ _] := sg; rewrite /opt_getDesignVariables e (segIterE dbl gd sg) /=.
have in_ : (i < size kps)%N by move: i2; clear; lia.
rewrite firstRelevantE //= size_canon /ub_unless in_ (collect_canon e) ?leq_subr //=.
have -> : (i.+1 - (i.+1 - k) = k)%N by move: i1; clear; lia.
by rewrite size_map size_iota leqnn subnn cats0.
Qed.
Lemma blocks_canon o k kps t i evJ psize dim chain d J : op_sp o = canon dbl k kps -> good k kps ->
  is_segment k kps t i -> evJ (op_sp o) (ev_of dbl k kps t i) d = Ok J ->
  exists2 js, opt_blocks evJ psize dim o (ev_of dbl k kps t i) d chain = Ok js &
    [/\ unzip1 js = own_ptrs o kps (i.+1 - k) k, size js = k &
     forall c, (c < k)%N -> nth (ptr0, zerom) js c =
       ((op_map o, kp_knot kps (i.+1 - k + c)), chained psize chain (get_block J 0 (c * dim)))].
Proof.
move=> e gd sg hJ; have [i1 i2 _ _] := sg; rewrite /opt_blocks hJ [ev_first _]/= [ev_end _]/=.
rewrite (collect_canon e) ?leq_subr // /obind; last by move: i2; clear; lia.
have -> : (i.+1 - (i.+1 - k) = k)%N by move: i1; clear; lia.
rewrite /ub_unless size_map size_iota e [ds_order _]/= mulnC leqnn.
eexists; first by []; split.
- rewrite /unzip1 -map_comp (eq_map (f2 := snd)) //.
  by apply: unzip2_zip; rewrite size_map !size_iota.
- by rewrite size_map size_zip size_map !size_iota minnn.
move=> c hc; rewrite (nth_map (0%N, ptr0)) ?size_zip ?size_map ?size_iota ?minnn //.
rewrite nth_zip ?size_map ?size_iota //= !nth_iota //= add0n (nth_map 0%N) ?size_iota //.
by rewrite nth_iota.
Qed.

Lemma opt_expression (mf : manifold F) (mf_update : vec F -> vec F -> vec F) w a lo hi t :
  reached dbl mf mf_update w -> (a < size (w_objs w))%N -> ds_evaluable (op_sp (obj w a)) ->
  dm_getMinTime (op_sp (obj w a)) = Ok lo -> dm_getMaxTime (op_sp (obj w a)) = Ok hi ->
  lo <= t <= hi -> let o := obj w a in let k := ds_order (op_sp o) in
  exists ev ps, [/\ const_factory dbl o t = Ok ev, opt_getDesignVariables o t = Ok (map Some ps),
    const_dvs o ev = Ok ps /\ size ps = k,
    (forall c, (c < k)%N -> opt_designVariable o (ev_first ev + c) = Ok (nth ptr0 ps c) /\
       w_seg w (nth ptr0 ps c) = Ok (a, (ev_first ev + c)%N)) &
    forall evJ psize dim chain d J, evJ (op_sp o) ev d = Ok J ->
      exists2 js, const_jacobians evJ psize dim o ev d chain = Ok js &
        unzip1 js = ps /\ forall c, (c < k)%N ->
          (nth (ptr0, zerom) js c).2 = chained psize chain (get_block J 0 (c * dim))].
Proof.
move=> R ha ev; have ok := reached_ok R; have [k [kps [e gd d]]] := ok_canon ok ha ev.
rewrite e minTimeE // maxTimeE // => -[<-] [<-] /andP[t1 t2] o.
have [i sg] := segment_ex gd t1 t2; have [i1 i2 _ _] := sg; have [k0 sz inc] := and3P gd.
have kE : (i.+1 - (i.+1 - k) = k)%N by move: i1; clear; lia.
rewrite -/o in e d; have oE : ds_order (op_sp o) = k by rewrite e.
rewrite /= oE; exists (ev_of dbl k kps t i), (own_ptrs o kps (i.+1 - k) k); split.
- by rewrite /const_factory e (evaluatorE dbl gd sg).
- exact: getDV_canon.
- rewrite /const_dvs (collect_canon e) ?leq_subr ?kE ?size_map ?size_iota //.
  by move: i2; clear; rewrite /=; lia.
- move=> c ck; have nE : nth ptr0 (own_ptrs o kps (i.+1 - k) k) c = (op_map o, kp_knot kps (i.+1 - k + c)).
    by rewrite (nth_map 0%N) ?size_iota // nth_iota.
  have cn : (i.+1 - k + c < size kps - k)%N by move: i1 i2 ck; clear; lia.
  rewrite nE [ev_first _]/=; split.
    rewrite /opt_designVariable /sm_assert d size_map size_iota cn (nth_map 0%N) ?size_iota //.
    by rewrite nth_iota.
  by apply: w_seg_own ok ha e gd _; move: cn; clear; lia.
move=> evJ psize dim chain dd J hJ.
have [js h1 [h2 h3 h4]] := blocks_canon psize dim chain e gd sg hJ.
by exists js => //; split=> // c ck; rewrite h4.
Qed.

(* ---- Euclidean splines ---- *)
Hypothesis et : exact_time dbl one.
Variables (D : nat) (imax : option nat) (np : nat).
Notation evD := (eu_evalD dbl one imax np).
Notation evJ := (eu_evalJacobian dbl one D imax np).
Notation wt k kps t i d c := (seg_weight dbl one k kps t i d c).

Lemma evD_canon k kps t i d : good k kps -> is_segment k kps t i -> (np <= k.+1)%N ->
  (if imax is Some mx then (d <= mx)%N else true) ->
  exists2 v, evD (canon dbl k kps) (ev_of dbl k kps t i) d = Ok v &
   forall r, v r = fsum k (fun c => wt k kps t i d c * (nth kp0 kps (i.+1 - k + c)).2 r).
Proof.
move=> gd sg npk hd; have [i1 i2 _ _] := sg.
have [v -> H] := eu_evalDE et gd sg npk hd; exists v => // r.
by rewrite H (piece_weightE dbl one gd).
Qed.
Lemma evJ_canon k kps t i d : good k kps -> is_segment k kps t i -> (np <= k.+1)%N ->
  (if imax is Some mx then (d <= mx)%N else true) ->
  exists2 J, evJ (canon dbl k kps) (ev_of dbl k kps t i) d = Ok J &
   forall c r q, (c < k)%N -> (r < D)%N -> (q < D)%N ->
    get_block J 0 (c * D) r q = (r == q)%:R * wt k kps t i d c.
Proof.
move=> gd sg npk hd; rewrite /eu_evalJacobian /sm_assert.
have -> : (if imax is Some m then (d < m.+1)%N else true) = true by case: imax hd.
have [b -> Hb] := getLocalBiE et gd d false sg npk.
rewrite /obind; eexists; first by [].
move=> c r q ck rD qD; rewrite /get_block add0n (@diag_blocks_loop _ D k b (fun i => i * D)%N) //.
  rewrite modnMDl modn_small // divnMDl ?divn_small ?addn0 ?Hb //.
  by apply: leq_ltn_trans qD.
have -> : (k * D = (k - c.+1) * D + (c * D + D))%N.
  by rewrite -mulSnr -mulnDl; congr (_ * _)%N; move: ck; clear; lia.
by move: qD; clear; lia.
Qed.

(* all blocks handed to a variable *)
Lemma opredicted_one (js : seq (ptr * mat F)) k o kps b p dp r : increasing kps ->
  unzip1 js = own_ptrs o kps b k -> (b + k <= size kps)%N ->
  opredicted D js p dp r = fsum k (fun c => ((op_map o, kp_knot kps (b + c)) == p)%:R *
     fsum D (fun q => (nth (ptr0, zerom) js c).2 r q * dp q)).
Proof.
move=> inc e bk; have sz : size js = k by have := congr1 size e; rewrite !size_map size_iota.
rewrite /opredicted sz; apply: eq_fsum => c ck; congr ((_ == p)%:R * _).
have := congr1 (fun s => nth ptr0 s c) e.
rewrite /unzip1 (nth_map (ptr0, zerom)) ?sz // => ->.
by rewrite (nth_map 0%N) ?size_iota // nth_iota.
Qed.
Lemma chained_sum m (C B : mat F) dp r :
  fsum D (fun q => chained D (Some (m, C)) B r q * dp q) =
  fsum D (fun s => C r s * fsum D (fun q => B s q * dp q)).
Proof.
rewrite /chained /mulm (eq_fsum (g := fun q => fsum D (fun s => C r s * B s q * dp q))); last first.
  by move=> q _; rewrite fsum_mulr.
rewrite fsumE; under eq_bigr do rewrite fsumE.
rewrite exchange_big fsumE; apply: eq_bigr => s _ /=; rewrite !fsumE mulr_sumr.
by apply: eq_bigr => q _; ring.
Qed.

Lemma weight_with k kps a n g t i d c : good k kps -> (k <= i.+1)%N -> (i + k < size kps)%N ->
  (c < k)%N -> wt k (with_points kps a n g) t i d c = wt k kps t i d c.
Proof.
move=> gd i1 i2 ck; apply: (prefix_weight et) => //; first exact: good_with.
  by rewrite size_with.
by move=> j jn; rewrite knot_with.
Qed.

(* moving one variable *)
Lemma update_value (mf : manifold F) (mf_update : vec F -> vec F -> vec F) w a lo hi t d p dp w' :
  reached dbl mf mf_update w -> (a < size (w_objs w))%N -> ds_evaluable (op_sp (obj w a)) ->
  dm_getMinTime (op_sp (obj w a)) = Ok lo -> dm_getMaxTime (op_sp (obj w a)) = Ok hi ->
  lo <= t <= hi -> (np <= (ds_order (op_sp (obj w a))).+1)%N ->
  (if imax is Some mx then (d <= mx)%N else true) ->
  dv_update (@eu_update F) w p dp = Ok w' ->
  exists ev v js v', [/\ const_factory dbl (obj w a) t = Ok ev,
    const_value evD (obj w a) ev d = Ok v,
    const_jacobians evJ D D (obj w a) ev d None = Ok js,
    const_factory dbl (obj w' a) t = Ok ev /\ const_value evD (obj w' a) ev d = Ok v' &
    (forall r, (r < D)%N -> v' r = v r + opredicted D js p dp r) /\
    forall m C, exists2 jc, const_jacobians evJ D D (obj w a) ev d (Some (m, C)) = Ok jc &
      unzip1 jc = unzip1 js /\
      forall r, fsum D (fun s => C r s * (v' s - v s)) = opredicted D jc p dp r].
Proof.
move=> R ha ev; have ok := reached_ok R; have [k [kps [e gd _]]] := ok_canon ok ha ev.
rewrite e minTimeE // maxTimeE // => -[<-] [<-] /andP[t1 t2] npk hd U.
have [i sg] := segment_ex gd t1 t2; have [i1 i2 _ _] := sg; have [k0 sz inc] := and3P gd.
set o := obj w a in e *; rewrite [ds_order _]/= in npk.
have [v hv Hv] := evD_canon gd sg npk hd; have [J hJ HJ] := evJ_canon gd sg npk hd.
have hJ' : evJ (op_sp o) (ev_of dbl k kps t i) d = Ok J by rewrite e.
have [js h1 [h2 h3 h4]] := blocks_canon D D None e gd sg hJ'.
have bk : (i.+1 - k + k <= size kps)%N by move: i1 i2; clear; lia.
(* the other spline *)
have [kps' [e' gd' kn' Hv']] : exists kps', [/\ op_sp (obj w' a) = canon dbl k kps', good k kps',
    (size kps' = size kps) /\ (forall j, kp_knot kps' j = kp_knot kps j) &
    forall r, fsum k (fun c => wt k kps' t i d c * (nth kp0 kps' (i.+1 - k + c)).2 r) =
      v r + fsum k (fun c => wt k kps t i d c *
        ((op_map o, kp_knot kps (i.+1 - k + c)) == p)%:R * dp r)].
  move: U; rewrite /dv_update; case hp: (w_seg w p) => [[b j]||] //=.
  rewrite /ub_unless; case: ifP => // _ [<-].
  have [hb pm hj pk _] := w_seg_lt hp; rewrite obj_set //.
  have [eb|ne] := eqVneq a b.
    rewrite -{}eb -/o e in pm hj pk *; rewrite size_canon in hj.
    rewrite canon_knot_at // in pk.
    exists (with_points kps j 1 (fun _ _ => eu_update (sg_pt (seg_nth (ds_segs (canon dbl k kps)) j)) dp)).
    split.
    - by rewrite /= e canon_upd // canon_with_segs ?keys_with.
    - exact: good_with.
    - split; first by rewrite size_with.
      move=> j'; case: (ltnP j' (size kps)) => h; first by rewrite knot_with.
      by rewrite /kp_knot !nth_default ?size_with.
    move=> r; rewrite Hv -fsumD; apply: eq_fsum => c ck.
    have cn : (i.+1 - k + c < size kps)%N by move: bk ck; clear; lia.
    rewrite weight_with // nth_with //= addn1 ltnS -eqn_leq canon_pt //.
    have -> : ((op_map o, kp_knot kps (i.+1 - k + c)) == p) = (j == i.+1 - k + c)%N.
      case: (p) pm pk => p1 p2 /= <- <-; rewrite xpair_eqE eqxx /= !kp_knotE // eq_sym.
      by rewrite nth_uniq ?size_map //; exact: sorted_uniq_keys.
    by case: eqP => [<-|_]; rewrite /eu_update ?mulr1 ?mulr0 ?mul0r ?addr0 // mulrDr addrC.
  exists kps; split=> // r; rewrite Hv [X in _ + X]fsum0 ?addr0 // => c ck.
  suff -> : ((op_map o, kp_knot kps (i.+1 - k + c)) == p) = false by rewrite mulr0 mul0r.
  apply/eqP => ep; case/eqP: ne; have [_ um _] := ok.
  have := nth_uniq 0%N _ _ um (i := a) (j := b); rewrite !size_map => /(_ ha hb).
  rewrite !(nth_map (opt0 F T)) // pm -ep /= -/o => /esym; rewrite eqxx.
  by move/eqP.
have sg' : is_segment k kps' t i.
  by case: sg kn' => a1 a2 a3 a4 [b1 b2]; split; rewrite ?b1 ?b2.
have evE : ev_of dbl k kps' t i = ev_of dbl k kps t i by rewrite /ev_of !kn'.2.
have [v' hv' Hv2] := evD_canon gd' sg' npk hd.
have dE r : v' r = v r + fsum k (fun c => wt k kps t i d c *
        ((op_map o, kp_knot kps (i.+1 - k + c)) == p)%:R * dp r) by rewrite Hv2 Hv'.
have blk r c : (r < D)%N -> (c < k)%N ->
  fsum D (fun q => get_block J 0 (c * D) r q * dp q) = wt k kps t i d c * dp r.
  move=> rD ck; rewrite (fsum_pick (j := r)) //; first by rewrite HJ // eqxx mul1r.
  by move=> q qD ne; rewrite HJ // eq_sym (negbTE ne) !mul0r.
exists (ev_of dbl k kps t i), v, js, v'; split=> //.
- by rewrite /const_factory e (evaluatorE dbl gd sg).
- by rewrite /const_value e.
- by rewrite /const_factory /const_value e' (evaluatorE dbl gd' sg') -evE.
split.
  move=> r rD; rewrite dE; congr (_ + _); rewrite (opredicted_one _ _ _ inc h2 bk).
  apply: eq_fsum => c ck; rewrite h4 //= blk //; ring.
move=> m C; have [jc c1 [c2 c3 c4]] := blocks_canon D D (Some (m, C)) e gd sg hJ'.
exists jc => //; split; first by rewrite c2 h2.
move=> r; rewrite (opredicted_one _ _ _ inc c2 bk).
under [RHS]eq_fsum => c ck do rewrite c4 // chained_sum.
rewrite (eq_fsum (g := fun s => fsum k (fun c => C r s * (wt k kps t i d c *
        ((op_map o, kp_knot kps (i.+1 - k + c)) == p)%:R * dp s)))); last first.
  by move=> s sD; rewrite dE addrC addKr fsum_mull.
rewrite exchange_fsum; apply: eq_fsum => c ck; rewrite fsum_mull; apply: eq_fsum => s sD.
rewrite blk //; ring.
Qed.
End Expr.
