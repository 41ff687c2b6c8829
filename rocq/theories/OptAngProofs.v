(* Angular velocity and acceleration expressions of optimisable unit quaternion splines. *)
From mathcomp Require Import all_ssreflect all_algebra.
From mathcomp.algebra_tactics Require Import ring.
From mathcomp.zify Require Import zify.
From Verif Require Import Prelude CoxDeBoor DMModel DMSpec DMProofs DMConstructProofs DMEvalProofs
  DMAccessProofs DMCurveProofs QuatModel QuatSpec QuatProofs QuatJacobianModel QuatJacobianSpec
  QuatJacobianProofs QuatJacobianMain OptModel OptSpec OptProofs OptWorldProofs OptExprProofs
  OptTimeProofs OptAngModel OptAngSpec.
Set Implicit Arguments.
Unset Strict Implicit.
Unset Printing Implicit Defensive.
Import GRing.Theory Num.Theory Order.Theory.
Local Open Scope ring_scope.
#[local] Arguments pos_of : simpl never.
#[local] Arguments canon : simpl never.
#[local] Arguments fsum : simpl never.

Section Jac.
Variable F : realFieldType.
Lemma jac_nested k (M : mat F) (delta : nat -> v3 F) r : jac_apply k M delta r =
  \sum_(c < k) \sum_(q < 3) M r (c * 3 + q)%N * vec_of3 (delta c) q.
Proof.
rewrite /jac_apply mulnC.
rewrite -(fsumE (k * 3) (fun c => M r c * vec_of3 (delta (c %/ 3)%N) (c %% 3)%N)) fsum_nested fsumE.
apply: eq_bigr => c _; rewrite fsumE; apply: eq_bigr => q _.
by rewrite divnMDl // divn_small // addn0 modnMDl modn_small.
Qed.
Lemma chain_sum k (M C : mat F) (delta : nat -> v3 F) m r :
  \sum_(c < k) \sum_(q < 3) chained 3 (Some (m, C)) (get_block M 0 (c * 3)) r q * vec_of3 (delta c) q =
  C r 0%N * jac_apply k M delta 0%N + C r 1%N * jac_apply k M delta 1%N
  + C r 2%N * jac_apply k M delta 2%N.
Proof.
rewrite !jac_nested !big_distrr -!big_split; apply: eq_bigr => c _.
rewrite !big_ord_recr !big_ord0 /= /mulm /get_block !fsumE !big_ord_recr !big_ord0 /= !add0r !add0n.
by ring.
Qed.
Lemma vec_of3K (f : vec F) r : (r < 3)%N -> vec_of3 (v3_of f) r = f r.
Proof. by case: r => [|[|[|]]]. Qed.
Lemma contents_canon (T : realDomainType) (dbl : T -> F) k kps : contents (canon dbl k kps) = kps.
Proof.
rewrite /contents /canon /= /mkseq -map_comp -[RHS](mkseq_nth kp0) /mkseq; apply: eq_map => j /=.
by rewrite /kp_knot; case: (nth _ _ _).
Qed.
End Jac.

Section Core.
Variables (F : realFieldType) (T : realDomainType).
Variables (dbl : T -> F) (one : T).
Variables (expq : v3 F -> quat F) (logq : quat F -> v3 F) (norm : quat F -> F) (ieps : F).
Variables (S L : v3 F -> m3 F).
Hypotheses (et : exact_time dbl one) (ex : exp_like expq).
Variables (nc : bool) (np : nat).
Notation value := (ang_value dbl one expq logq ieps norm nc np).
Notation jacobians := (ang_jacobians dbl one expq logq S L ieps norm nc np).
Notation qjet k kps t i := (quat_jet dbl one expq logq k kps t i).
Notation djet delta k kps t i := (dual_jet dbl one expq logq S L delta k kps t i).
Variables (o : opt F T) (k : nat) (kps : seq (T * vec F)) (t : T) (i : nat).
Hypotheses (oE : op_sp o = canon dbl k kps) (gd : good k kps) (sg : is_segment k kps t i).
Hypotheses (npk : (np <= k.+1)%N) (k2 : (1 < k)%N).

Lemma ang_valueE d : (0 < d <= 3)%N ->
  value o (ev_of dbl k kps t i) d = Ok (vec_of3 (omega (qjet k kps t i) d.-1)).
Proof.
move=> d3; rewrite /ang_value oE (@angularE _ _ _ _ _ _ _ _ _ _ _ _ (qjet k kps t i)) //.
move=> e ed; have e3 : (e <= 3)%N by apply: leq_trans ed _; case/andP: d3.
by rewrite (evalDE et logq norm ieps ex nc gd sg npk k2 e3).
Qed.
Lemma ang_jacobiansE d chain : (forall j, (j < size kps)%N -> qnorm2 (quat_of (nth kp0 kps j).2) = 1) ->
  (0 < d <= 2)%N ->
  exists2 js, jacobians o (ev_of dbl k kps t i) d chain = Ok js &
    unzip1 js = own_ptrs o kps (i.+1 - k) k /\ forall delta r, (r < rows chain)%N ->
      blocks_apply js delta r = applied chain (v3map (@du F) (omega (djet delta k kps t i) d.-1)) r.
Proof.
move=> un d2; have [i1 i2 _ _] := sg.
have unitP j : (j < k)%N -> qnorm2 (quat_pt k kps i j) = 1.
  by move=> jk; apply: un; move: i1 i2 jk; clear; lia.
have [M eM hM] := angularJacobianE et logq norm ieps S L ex nc gd sg npk unitP k2 d2.
rewrite -oE in eM.
have [js h1 [h2 h3 h4]] := @blocks_canon F T dbl o k kps t i
  (fun s ev d => evalAngularDerivativeJacobian dbl one expq logq S L ieps norm nc np s ev d)
  3 3 chain d M oE gd sg eM.
exists js => //; split=> // delta r hr; rewrite -hM /blocks_apply h3.
have -> : \sum_(c < k) \sum_(q < 3) (nth (0%N, 0, zerom) js c).2 r q * vec_of3 (delta c) q =
  \sum_(c < k) \sum_(q < 3) chained 3 chain (get_block M 0 (c * 3)) r q * vec_of3 (delta c) q.
  by apply: eq_bigr => c _; apply: eq_bigr => q _; rewrite (h4 c (ltn_ord c)).
case: chain hr {h1 h4} => [[m C]|] hr; first by rewrite chain_sum /applied /v3_of.
rewrite /applied vec_of3K // jac_nested; apply: eq_bigr => c _; apply: eq_bigr => q _.
by rewrite /chained /get_block add0n.
Qed.
End Core.

Section Main.
Variables (F : realFieldType) (T : realDomainType).
Variables (dbl : T -> F) (one : T).
Variables (expq : v3 F -> quat F) (logq : quat F -> v3 F) (norm : quat F -> F) (ieps : F).
Variables (S L : v3 F -> m3 F).
Variable mf_update : vec F -> vec F -> vec F.
Hypotheses (et : exact_time dbl one) (ex : exp_like expq).
Variables (nc : bool) (np : nat).
Notation mf := (uq_manifold expq logq norm ieps).
Notation obj w a := (nth (opt0 F T) (w_objs w) a).
Notation value := (ang_value dbl one expq logq ieps norm nc np).
Notation jacobians := (ang_jacobians dbl one expq logq S L ieps norm nc np).
Notation te_value := (ang_te_value dbl one expq logq ieps norm nc np).
Notation te_jacobians := (ang_te_jacobians dbl one expq logq S L ieps norm nc np).
Notation qjet k kps t i := (quat_jet dbl one expq logq k kps t i).
Notation djet delta k kps t i := (dual_jet dbl one expq logq S L delta k kps t i).

Lemma ang_const w a lo hi t d : reached dbl mf mf_update w -> (a < size (w_objs w))%N ->
  let o := obj w a in let k := ds_order (op_sp o) in let kps := contents (op_sp o) in
  ds_evaluable (op_sp o) -> unit_vertices (op_sp o) ->
  dm_getMinTime (op_sp o) = Ok lo -> dm_getMaxTime (op_sp o) = Ok hi -> lo <= t <= hi ->
  (1 < k)%N -> (np <= k.+1)%N -> (0 < d <= 2)%N ->
  exists i ev ps, [/\ is_segment k kps t i, const_factory dbl o t = Ok ev,
    opt_getDesignVariables o t = Ok (map Some ps) /\ const_dvs o ev = Ok ps,
    value o ev d = Ok (vec_of3 (omega (qjet k kps t i) d.-1)) &
    forall chain, exists2 js, jacobians o ev d chain = Ok js & unzip1 js = ps /\
      forall delta r, (r < rows chain)%N ->
        blocks_apply js delta r = applied chain (v3map (@du F) (omega (djet delta k kps t i) d.-1)) r].
Proof.
move=> R ha o k kps ev; have ok := reached_ok R; have [k' [kps' [e gd _]]] := ok_canon ok ha ev.
rewrite -/o in e.
have kE : k = k' by rewrite /k e.
have pE : kps = kps' by rewrite /kps e contents_canon.
rewrite /unit_vertices -/kps; move: (k) (kps) kE pE => ? ? -> ->.
rewrite e minTimeE // maxTimeE // => un [<-] [<-] /andP[t1 t2] k2 npk d2.
have [i sg] := segment_ex gd t1 t2; have [i1 i2 _ _] := sg.
have iE : (i.+1 - (i.+1 - k') = k')%N by move: i1; clear; lia.
exists i, (ev_of dbl k' kps' t i), (own_ptrs o kps' (i.+1 - k') k'); split=> //.
- by rewrite /const_factory e (evaluatorE dbl gd sg).
- split; first exact: getDV_canon e gd sg.
  rewrite /const_dvs (collect_canon e) ?leq_subr ?iE //.
  by move: i2; clear; rewrite /=; lia.
- by apply: ang_valueE => //; case/andP: d2 => -> /leqW.
by move=> chain; apply: ang_jacobiansE.
Qed.

Lemma ang_time w a te t d : reached dbl mf mf_update w -> (a < size (w_objs w))%N ->
  let o := obj w a in let k := ds_order (op_sp o) in let kps := contents (op_sp o) in
  ds_evaluable (op_sp o) -> unit_vertices (op_sp o) ->
  te_fits dbl o te -> te_lo te <= t <= te_hi te ->
  te_cache te = None \/ t \notin map fst kps ->
  (1 < k)%N -> (np <= k.+1)%N -> (0 < d <= 2)%N ->
  exists i te' ps, [/\ is_segment k kps t i,
    te_fits dbl o te' /\ te_lo te' = te_lo te /\ te_hi te' = te_hi te,
    opt_getDesignVariables o t = Ok (map Some ps) /\
      (exists2 all, te_dvs o te' = Ok all & {subset ps <= all}),
    te_value o te t d = Ok (te', vec_of3 (omega (qjet k kps t i) d.-1)) &
    forall chain, exists js col, [/\ te_jacobians o te t d chain = Ok (te', js, col), unzip1 js = ps,
      (forall delta r, (r < rows chain)%N ->
        blocks_apply js delta r = applied chain (v3map (@du F) (omega (djet delta k kps t i) d.-1)) r) &
      forall r, (r < rows chain)%N -> col r = applied chain (omega (qjet k kps t i) d) r]].
Proof.
move=> R ha o k kps ev; have ok := reached_ok R; have [k' [kps' [e gd _]]] := ok_canon ok ha ev.
rewrite -/o in e.
have kE : k = k' by rewrite /k e.
have pE : kps = kps' by rewrite /kps e contents_canon.
rewrite /unit_vertices -/kps; move: (k) (kps) kE pE => ? ? -> ->.
move=> un fit tr nk k2 npk d2.
have [|te' [ev' [h1 h2 h3 h4 h5]]] := te_renew e gd fit tr.
  move=> ev' ec; case: nk => [|nk]; first by rewrite ec.
  apply/negP => /eqP kt; case/negP: nk; rewrite -kt.
  have [_] := fit; rewrite ec; case=> // -[t0 [ev1 [[<-] _ E]]].
  have [j [_ j2 _ _] ->] := evaluator_canon e gd E.
  have jn : (j < size kps')%N by move: j2; clear; lia.
  by rewrite /= /kp_knot -(nth_map _ (0 : T) fst jn) mem_nth ?size_map.
have [i sg eE] := evaluator_canon e gd h2; have [i1 i2 _ _] := sg.
exists i, te', (own_ptrs o kps' (i.+1 - k') k'); split=> //.
- split; first exact: getDV_canon e gd sg.
  have [b [e' [q1 q2 q3]]] := te_dvsE e gd h5; exists (own_ptrs o kps' b (e' - b)) => //.
  have [|b1 b2] := q3 t i _ sg; first by rewrite h3 h4.
  move=> p /mapP[j]; rewrite mem_iota => jr ->; apply/mapP; exists j => //.
  by rewrite mem_iota; move: jr b1 b2 i1; clear; lia.
- rewrite /ang_te_value h1 /obind eE.
  by rewrite (ang_valueE logq norm ieps et ex nc e gd sg npk k2) //; case/andP: d2 => -> /leqW.
move=> chain; have [js q1 [q2 q3]] := ang_jacobiansE logq norm ieps S L et ex nc e gd sg npk k2 chain un d2.
rewrite /ang_te_jacobians h1 /obind eE q1.
rewrite (ang_valueE logq norm ieps et ex nc e gd sg npk k2); last by case/andP: d2.
exists js; eexists; split=> //.
move=> r hr; case: chain hr {q1 q3} => [[m C]|//] hr.
by rewrite /applied /mulv fsumE !big_ord_recr big_ord0 /= add0r.
Qed.

(* the cached evaluator, made for t0, is used again when its segment begins at t *)
Lemma ang_stale w a te t t0 ev d : reached dbl mf mf_update w -> (a < size (w_objs w))%N ->
  let o := obj w a in let k := ds_order (op_sp o) in let kps := contents (op_sp o) in
  ds_evaluable (op_sp o) -> unit_vertices (op_sp o) ->
  te_fits dbl o te -> te_lo te <= t <= te_hi te ->
  te_cache te = Some ev -> const_factory dbl o t0 = Ok ev ->
  (1 < k)%N -> (np <= k.+1)%N -> (0 < d <= 2)%N ->
  forall i, is_segment k kps t0 i -> kp_knot kps i = t ->
    te_value o te t d = Ok (te, vec_of3 (omega (qjet k kps t0 i) d.-1)) /\
    forall chain, exists js col, [/\ te_jacobians o te t d chain = Ok (te, js, col),
      (forall delta r, (r < rows chain)%N ->
        blocks_apply js delta r = applied chain (v3map (@du F) (omega (djet delta k kps t0 i) d.-1)) r) &
      forall r, (r < rows chain)%N -> col r = applied chain (omega (qjet k kps t0 i) d) r].
Proof.
move=> R ha o k kps evb; have ok := reached_ok R; have [k' [kps' [e gd _]]] := ok_canon ok ha evb.
rewrite -/o in e.
have kE : k = k' by rewrite /k e.
have pE : kps = kps' by rewrite /kps e contents_canon.
rewrite /unit_vertices -/kps; move: (k) (kps) kE pE => ? ? -> ->.
move=> un fit tr ec cf k2 npk d2 i sg kt.
have [j sj eE] := evaluator_canon e gd cf.
have ji := segment_uniq gd sj sg; rewrite ji in eE.
have h1 : te_getEvaluator dbl o te t = Ok (te, ev).
  by apply: (te_stale e gd fit tr ec); rewrite eE.
split.
  rewrite /ang_te_value h1 /obind eE.
  by rewrite (ang_valueE logq norm ieps et ex nc e gd sg npk k2) //; case/andP: d2 => -> /leqW.
move=> chain; have [js q1 [q2 q3]] := ang_jacobiansE logq norm ieps S L et ex nc e gd sg npk k2 chain un d2.
rewrite /ang_te_jacobians h1 /obind eE q1.
rewrite (ang_valueE logq norm ieps et ex nc e gd sg npk k2); last by case/andP: d2.
exists js; eexists; split=> //.
move=> r hr; case: chain hr {q1 q3} => [[m C]|//] hr.
by rewrite /applied /mulv fsumE !big_ord_recr big_ord0 /= add0r.
Qed.
End Main.
