(* Expressions on optimisable manifold splines whose time is itself an expression. *)
From mathcomp Require Import all_ssreflect all_algebra.
From mathcomp.algebra_tactics Require Import ring.
From mathcomp.zify Require Import zify.
From Verif Require Import Prelude CoxDeBoor BSplineModel BSplineSpec BSplineAccessProofs
  DMModel DMSpec DMProofs DMConstructProofs
  DMAppendProofs DMEvalProofs DMAccessProofs DMCurveProofs OptModel OptSpec OptProofs
  OptWorldProofs OptExprProofs.
Set Implicit Arguments.
Unset Strict Implicit.
Unset Printing Implicit Defensive.
Import GRing.Theory Num.Theory Order.Theory.
Local Open Scope ring_scope.
#[local] Arguments pos_of : simpl never.
#[local] Arguments canon : simpl never.
#[local] Arguments fsum : simpl never.

Section Time.
Variables (F : realFieldType) (T : realDomainType).
Variables (dbl : T -> F).
Notation opt := (opt F T).
Notation ptr := (ptr T).
Implicit Types (o : opt) (kps : seq (T * vec F)) (p : ptr) (te : te_data F T).

Lemma segment_mono k kps t t' i j : good k kps -> is_segment k kps t i -> is_segment k kps t' j ->
  t <= t' -> (i <= j)%N.
Proof.
move=> gd [i1 i2 i3 i4] [j1 j2 j3 j4] tt; rewrite leqNgt; apply/negP => ji.
case: j4 => [lt|[e _]]; last by move: e ji i2; clear; lia.
have : kp_knot kps j.+1 <= kp_knot kps i by apply: (kk_le gd); [exact: ji|move: i2; clear; lia].
by rewrite leNgt => /negP; apply; apply: le_lt_trans lt; apply: le_trans i3 tt.
Qed.
Lemma segment_uniq k kps t i j : good k kps -> is_segment k kps t i -> is_segment k kps t j -> i = j.
Proof.
move=> gd hi hj; apply/eqP; rewrite eqn_leq.
by rewrite (segment_mono gd hi hj) // (segment_mono gd hj hi).
Qed.

Variables (o : opt) (k : nat) (kps : seq (T * vec F)).
Hypotheses (oE : op_sp o = canon dbl k kps) (gd : good k kps).

Lemma fits_range te t : te_fits dbl o te -> te_lo te <= t <= te_hi te ->
  exists i, is_segment k kps t i.
Proof.
case=> [[lo [hi [h1 h2 h3 h4 h5]]] _] /andP[t1 t2]; apply: segment_ex => //.
  by move: h1 h3; rewrite oE minTimeE // => -[<-] h3; apply: le_trans t1.
by move: h2 h5; rewrite oE maxTimeE // => -[<-] h5; apply: le_trans h5.
Qed.
Lemma evaluator_canon t ev : dm_evaluator dbl (op_sp o) t = Ok ev ->
  exists2 i, is_segment k kps t i & ev = ev_of dbl k kps t i.
Proof.
rewrite oE => h.
case: (leP (kp_knot kps (k - 1)) t) => t1; last by rewrite (evaluator_out dbl gd) // in h; left.
case: (leP t (kp_knot kps (size kps - k))) => t2; last by rewrite (evaluator_out dbl gd) // in h; right.
have [i sg] := segment_ex gd t1 t2; exists i => //.
by move: h; rewrite (evaluatorE dbl gd sg) => -[].
Qed.
Lemma te_new_fits lo hi te : te_new o lo hi = Ok te ->
  [/\ te_fits dbl o te, te_lo te = lo, te_hi te = hi & te_cache te = None].
Proof.
rewrite /te_new /sm_assert oE minTimeE // maxTimeE // /obind.
case: ifP => // h1; case: ifP => // h2; case: ifP => // h3 [<-]; split=> //; split; last by left.
by rewrite oE minTimeE // maxTimeE //; eexists; eexists; split.
Qed.

(* which evaluator is used *)
Lemma te_renew te t : te_fits dbl o te -> te_lo te <= t <= te_hi te ->
  (forall ev, te_cache te = Some ev -> kp_knot kps (ev_ti ev) != t) ->
  exists te' ev, [/\ te_getEvaluator dbl o te t = Ok (te', ev), dm_evaluator dbl (op_sp o) t = Ok ev,
    te_lo te' = te_lo te, te_hi te' = te_hi te & te_fits dbl o te'].
Proof.
move=> fit tr ne; have [i sg] := fits_range fit tr; have /andP[t1 t2] := tr.
have E : dm_evaluator dbl (op_sp o) t = Ok (ev_of dbl k kps t i) by rewrite oE (evaluatorE dbl gd sg).
exists (TeData (te_lo te) (te_hi te) (Some (ev_of dbl k kps t i))), (ev_of dbl k kps t i).
split=> //; last first.
  case: fit => fit _; split=> //; right; exists t, (ev_of dbl k kps t i).
  by split.
rewrite /te_getEvaluator /sm_assert t1 t2 E.
case: fit => _ [->//|[t0 [ev [ec _ e0]]]]; rewrite ec.
have [j sj ej] := evaluator_canon e0; have [_ j2 _ _] := sj.
rewrite /ub_unless oE size_canon ej /=.
have -> : (j < size kps)%N by move: j2; clear; lia.
rewrite canon_knot_at; last by move: j2; clear; lia.
by have := ne _ ec; rewrite ej => /negbTE /= ->.
Qed.
Lemma te_same te t : te_fits dbl o te -> te_lo te <= t <= te_hi te ->
  forall ev, te_cache te = Some ev -> dm_evaluator dbl (op_sp o) t = Ok ev ->
  exists te', [/\ te_getEvaluator dbl o te t = Ok (te', ev), te_lo te' = te_lo te,
    te_hi te' = te_hi te & te_fits dbl o te'].
Proof.
move=> fit tr ev ec E; have [i sg eE] := evaluator_canon E; have /andP[t1 t2] := tr.
have [ke|ne] := eqVneq (kp_knot kps (ev_ti ev)) t.
  exists te; split=> //; rewrite /te_getEvaluator /sm_assert t1 t2 ec.
  have [_ i2 _ _] := sg; have iN : (i < size kps)%N by move: i2; clear; lia.
  rewrite /ub_unless oE size_canon eE /= iN canon_knot_at //.
  by move: ke; rewrite eE /= => ->; rewrite eqxx.
have [|te' [ev' [h1 h2 h3 h4 h5]]] := te_renew fit tr; first by rewrite ec => ? [<-].
by exists te'; move: h2; rewrite E => -[->]; split.
Qed.
Lemma te_stale te t ev : te_fits dbl o te -> te_lo te <= t <= te_hi te -> te_cache te = Some ev ->
  kp_knot kps (ev_ti ev) = t -> te_getEvaluator dbl o te t = Ok (te, ev).
Proof.
move=> fit /andP[t1 t2] ec ke; rewrite /te_getEvaluator /sm_assert t1 t2 ec.
have [_] := fit; rewrite ec; case=> // -[t0 [ev' [[<-] _ E]]].
have [i sg eE] := evaluator_canon E; have [_ i2 _ _] := sg.
have iN : (i < size kps)%N by move: i2; clear; lia.
rewrite /ub_unless oE size_canon eE /= iN canon_knot_at //.
by move: ke; rewrite eE /= => ->; rewrite eqxx.
Qed.

(* registered variables *)
Lemma te_dvsE te : te_fits dbl o te -> exists b e,
  [/\ te_dvs o te = Ok (own_ptrs o kps b (e - b)), (e <= size kps - k)%N &
  forall t i, te_lo te <= t <= te_hi te -> is_segment k kps t i ->
    (b <= i.+1 - k)%N /\ (i < e)%N].
Proof.
move=> fit; have [[lo [hi [h1 h2 h3 h4 h5]]] _] := fit.
have [b sb] : exists i, is_segment k kps (te_lo te) i by apply: (fits_range fit); rewrite lexx ltW.
have [e se] : exists i, is_segment k kps (te_hi te) i by apply: (fits_range fit); rewrite lexx ltW.
have [b1 b2 _ _] := sb; have [e1 e2 _ _] := se; have /and3P[k0 sz _] := gd.
have be := segment_mono gd sb se (ltW h4).
exists (b.+1 - k)%N, e.+1; split.
- rewrite /te_dvs /te_begin /te_end h1 h2 /obind (max_idPr h3) (min_idPr h5) oE.
  rewrite (segIterE dbl gd sb) (segIterE dbl gd se) firstRelevantE //; last by move: b2; clear; lia.
  rewrite [ds_end _]/= pos_canon //; last by move: k0 sz; clear; lia.
  have -> : (e == size kps - k)%N = false by apply/eqP; move: e2; clear; lia.
  rewrite /ub_unless size_canon; have -> : (e < size kps)%N by move: e2; clear; lia.
  by rewrite (collect_canon oE) //; move: be e2; clear; lia.
- by move: e2; clear; lia.
move=> t i /andP[t1 t2] si.
have := segment_mono gd sb si t1; have := segment_mono gd si se t2.
by clear; lia.
Qed.
End Time.

Section Value.
Variables (F : realFieldType) (T : realDomainType) (dbl : T -> F) (one : T).
Hypothesis et : exact_time dbl one.
Variables (D : nat) (imax : option nat) (np : nat).
Notation evD := (eu_evalD dbl one imax np).
Notation evJ := (eu_evalJacobian dbl one D imax np).
Notation world := (world F T).
Notation ptr := (ptr T).
Notation obj w a := (nth (opt0 F T) (w_objs w) a).
Variables (mf : manifold F) (mf_update : vec F -> vec F -> vec F).
Implicit Types (w : world) (te : te_data F T).

Lemma new_fits w a lo hi te : reached dbl mf mf_update w -> (a < size (w_objs w))%N ->
  ds_evaluable (op_sp (obj w a)) -> te_new (obj w a) lo hi = Ok te ->
  [/\ te_fits dbl (obj w a) te, te_lo te = lo, te_hi te = hi & te_cache te = None].
Proof.
move=> R ha ev; have [k [kps [e gd _]]] := ok_canon (reached_ok R) ha ev.
by move=> h; exact: (te_new_fits e gd h).
Qed.
Lemma time_out w a te t : t < te_lo te \/ te_hi te < t ->
  te_getEvaluator dbl (obj w a) te t = Throw ExnRuntime.
Proof.
rewrite /te_getEvaluator /sm_assert => -[h|h]; first by rewrite leNgt h.
by case: ifP => // _; rewrite leNgt h.
Qed.

Lemma time_value w a te t d : reached dbl mf mf_update w -> (a < size (w_objs w))%N ->
  ds_evaluable (op_sp (obj w a)) -> te_fits dbl (obj w a) te -> te_lo te <= t <= te_hi te ->
  (np <= (ds_order (op_sp (obj w a))).+1)%N -> (if imax is Some mx then (d <= mx)%N else true) ->
  te_cache te = None \/ t \notin op_keys (obj w a) ->
  exists te' ev v, [/\ te_value dbl evD (obj w a) te t d = Ok (te', v),
    dm_evaluator dbl (op_sp (obj w a)) t = Ok ev, evD (op_sp (obj w a)) ev d = Ok v &
    te_fits dbl (obj w a) te'].
Proof.
move=> R ha ev; have [k [kps [e gd _]]] := ok_canon (reached_ok R) ha ev.
rewrite e => fit tr npk hd nk; rewrite [ds_order _]/= in npk.
have [|te' [ev' [h1 h2 h3 h4 h5]]] := te_renew e gd fit tr.
  move=> ev0 ec; case: nk => [|nk]; first by rewrite ec.
  have [_] := fit; rewrite ec; case=> // -[t0 [ev1 [[<-] _ E]]].
  have [i sg ->] := evaluator_canon e gd E; have [_ i2 _ _] := sg.
  apply: contra nk => /eqP <- /=; rewrite /op_keys e canon_keys.
  have iN : (i < size kps)%N by move: i2; clear; lia.
  by rewrite kp_knotE //; apply: mem_nth; rewrite size_map.
have [i sg eE] := evaluator_canon e gd h2.
have [v hv _] := evD_canon et gd sg npk hd.
exists te', ev', v; split=> //; last 1 first.
- by rewrite eE.
- by rewrite /te_value h1 /= e eE hv.
- by rewrite -e.
Qed.

(* the Jacobians *)
Lemma opredicted_cat (js : seq (ptr * mat F)) ps p dp r :
  opredicted D (js ++ [seq (q, zerom) | q <- ps]) p dp r = opredicted D js p dp r.
Proof.
rewrite /opredicted size_cat fsum_cat [X in _ + X]fsum0 ?addr0.
  by apply: eq_fsum => c ck; rewrite nth_cat ck.
move=> c ck; rewrite nth_cat ltnNge leq_addr /= addKn (nth_map (0%N, 0)).
  by rewrite fsum0 ?mulr0 // => q _; rewrite mul0r.
by rewrite size_map in ck.
Qed.
Lemma time_jacobians w a te t d p dp w' : reached dbl mf mf_update w -> (a < size (w_objs w))%N ->
  ds_evaluable (op_sp (obj w a)) -> te_fits dbl (obj w a) te -> te_lo te <= t <= te_hi te ->
  (np <= (ds_order (op_sp (obj w a))).+1)%N -> (if imax is Some mx then (d < mx)%N else true) ->
  te_cache te = None \/ t \notin op_keys (obj w a) ->
  dv_update (@eu_update F) w p dp = Ok w' ->
  exists ps te' js col ev v v', [/\ te_dvs (obj w a) te = Ok ps,
    te_jacobians dbl evD evJ D D (obj w a) te t d None = Ok (te', js, col),
    unzip1 js =i ps,
    [/\ dm_evaluator dbl (op_sp (obj w a)) t = Ok ev, evD (op_sp (obj w a)) ev d = Ok v,
      evD (op_sp (obj w a)) ev d.+1 = Ok col & evD (op_sp (obj w' a)) ev d = Ok v'] &
    forall r, (r < D)%N -> v' r = v r + opredicted D js p dp r].
Proof.
move=> R ha ev; have [k [kps [e gd _]]] := ok_canon (reached_ok R) ha ev.
rewrite e => fit tr npk hd nk U; rewrite [ds_order _]/= in npk.
have hd1 : is_true (if imax is Some mx then (d.+1 <= mx)%N else true) by case: imax hd.
have hd0 : is_true (if imax is Some mx then (d <= mx)%N else true) by case: imax hd => // m; exact: ltnW.
have [|te' [ev' [h1 h2 h3 h4 h5]]] := te_renew e gd fit tr.
  move=> ev0 ec; case: nk => [|nk]; first by rewrite ec.
  have [_] := fit; rewrite ec; case=> // -[t0 [ev1 [[<-] _ E]]].
  have [i sg ->] := evaluator_canon e gd E; have [_ i2 _ _] := sg.
  apply: contra nk => /eqP <- /=; rewrite /op_keys e canon_keys.
  have iN : (i < size kps)%N by move: i2; clear; lia.
  by rewrite kp_knotE //; apply: mem_nth; rewrite size_map.
have [lo [hi [m1 m2 m3 m4 m5]]] := fit.1.
have /andP[t1 t2] := tr.
have tr' : lo <= t <= hi by rewrite (le_trans m3 t1) (le_trans t2 m5).
have [||ev0 [v [js [v' [k1 k2 k3 [k4 k5] [k6 _]]]]]] :=
  update_value (d := d) (imax := imax) (np := np) et D R ha ev m1 m2 tr' _ _ U.
- by rewrite e.
- by case: imax hd0.
have eq0 : ev0 = ev' by move: k1; rewrite /const_factory h2 => -[].
subst ev0; have [i sg eE] := evaluator_canon e gd h2; have [i1 i2 _ _] := sg.
have [col hc _] := evD_canon et gd sg npk hd1.
have [b [en [d1 d2 d3]]] := te_dvsE e gd fit; have [bi ie] := d3 t i tr sg.
have d1' : te_dvs (obj w a) te' = te_dvs (obj w a) te by rewrite /te_dvs /te_begin /te_end h3 h4.
exists (own_ptrs (obj w a) kps b (en - b)), te',
  (js ++ [seq (q, zerom) | q <- own_ptrs (obj w a) kps b (en - b)]), col, ev', v, v'.
have js1 : unzip1 js = own_ptrs (obj w a) kps (i.+1 - k) k.
  have [J hJ _] := evJ_canon et D gd sg npk hd0.
  have hJ' : evJ (op_sp (obj w a)) (ev_of dbl k kps t i) d = Ok J by rewrite e.
  have [js' q1 [q2 _ _]] := blocks_canon D D None e gd sg hJ'.
  by move: k3; rewrite /const_jacobians eE q1 => -[<-].
split=> //.
- rewrite /te_jacobians h1; move: k3; rewrite /const_jacobians => k3.
  by rewrite /obind k3 d1' d1 e eE hc.
- move=> q; rewrite /unzip1 map_cat mem_cat -/(unzip1 js) js1 -map_comp.
  rewrite (_ : map _ _ = own_ptrs (obj w a) kps b (en - b)); last by rewrite -[RHS]map_id; apply: eq_map.
  apply/orP/idP => [[]//|]; last by right.
  case/mapP => j; rewrite mem_iota => hj ->; apply/mapP; exists j => //; rewrite mem_iota.
  by move: hj bi ie i1; clear; lia.
- by split=> //; [rewrite -e|rewrite -e|rewrite eE].
by move=> r rD; rewrite opredicted_cat k6.
Qed.
End Value.
