(* Histories of calls on optimisable manifold splines keep the design variables of every
   spline its own control vertices. *)
From mathcomp Require Import all_ssreflect all_algebra.
From mathcomp.zify Require Import zify.
From Verif Require Import Prelude CoxDeBoor DMModel DMSpec DMProofs DMConstructProofs
  DMAppendProofs DMEvalProofs DMAccessProofs OptModel OptSpec OptProofs.
Set Implicit Arguments.
Unset Strict Implicit.
Unset Printing Implicit Defensive.
Import GRing.Theory Num.Theory Order.Theory.
Local Open Scope ring_scope.
#[local] Arguments pos_of : simpl never.
#[local] Arguments canon : simpl never.
#[local] Arguments constructing : simpl never.

Section World.
Variables (F : realFieldType) (T : realDomainType).
Variables (dbl : T -> F) (mf : manifold F) (mf_update : vec F -> vec F -> vec F).
Notation world := (world F T).
Notation opt := (opt F T).
Notation ptr := (ptr T).
Notation wop := (wop F T).
Notation obj w a := (nth (opt0 F T) (w_objs w) a).
Notation step := (w_step dbl mf mf_update).
Notation keys m := (map (@sg_knot F T) m).
Implicit Types (w : world) (o : opt) (kps : seq (T * vec F)) (m : seq (seg F T)).

(* maps without basis matrices *)
Definition no_basis m : Prop := forall i, sg_basis (seg_nth m i) = None.
Definition points m := [seq (sg_knot x, sg_pt x) | x <- m].
Lemma raw_of m : no_basis m -> m = raw_segs (points m).
Proof.
move=> h; apply: segs_eq; first by rewrite !size_map.
move=> i hi; rewrite nth_raw ?size_map // /kp_knot /points (nth_map (seg0 F T)) //=.
by move: (h i); rewrite /seg_nth; case: (nth _ _ _) => ? ? ? /= ->.
Qed.
Lemma keys_points m : map fst (points m) = keys m.
Proof. by rewrite -map_comp. Qed.
Lemma no_basis_raw kps : no_basis (raw_segs kps).
Proof.
move=> i; case: (ltnP i (size kps)) => h; first by rewrite nth_raw.
by rewrite /seg_nth nth_default ?size_raw.
Qed.
Lemma no_basis_insert t p m : no_basis m -> no_basis (sm_insert (Seg t p None) m).
Proof.
elim: m => [|y m IH] nb; first by case=> [|i] //=; rewrite /seg_nth nth_nil.
have nb' : no_basis m by move=> i; exact: (nb i.+1).
rewrite /=; case: ifP => _; first by case=> [//|i]; exact: (nb i).
case: ifP => _ //; case=> [|i]; first exact: (nb 0%N).
exact: (IH nb' i).
Qed.
Lemma keys_insert t p m : keys (sm_insert (Seg t p None) m) = ins t (keys m).
Proof. by elim: m => //= y m IH; case: ifP => //= _; case: ifP => //= _; rewrite IH. Qed.
Lemma insert_raw t p kps : increasing kps -> exists2 kps',
  sm_insert (Seg t p None) (raw_segs kps) = raw_segs kps' & increasing kps'.
Proof.
move=> inc; set m := sm_insert _ _; exists (points m).
  by apply: raw_of; apply: no_basis_insert; exact: no_basis_raw.
by rewrite /increasing keys_points keys_insert keys_raw; exact: sorted_ins.
Qed.

Definition obj_ok o : Prop := exists k kps, (0 < k)%N /\
  ([/\ op_sp o = canon dbl k kps, good k kps &
       op_dvs o = [seq (op_map o, kp_knot kps i) | i <- iota 0 (size kps - k)]] \/
   [/\ op_sp o = constructing k kps, increasing kps & op_dvs o = [::]]).

Lemma addKnot_ok o t : obj_ok o -> ~~ ds_evaluable (op_sp o) -> obj_ok (opt_addKnot mf o t).
Proof.
case=> k [kps [k0 [[-> //]|[e inc d]]]] _.
have [kps' e' inc'] := insert_raw t (mf_default mf) inc.
exists k, kps'; split=> //; right; split=> //=.
by rewrite e /dm_addKnot /constructing /with_segs /= e'.
Qed.
Lemma addVertex_ok o t p o' : obj_ok o -> ~~ ds_evaluable (op_sp o) ->
  opt_addControlVertex mf o t p = Ok o' -> obj_ok o'.
Proof.
case=> k [kps [k0 [[-> //]|[e inc d]]]] _.
rewrite /opt_addControlVertex /dm_addControlVertex /massert; case: ifP => //= _ [<-].
have [kps' e' inc'] := insert_raw t p inc.
exists k, kps'; split=> //; right; split=> //=.
by rewrite e /constructing /with_segs /= e'.
Qed.
Lemma addVertices_constructing tps k kps s u : increasing kps ->
  dm_addControlVertices mf (constructing k kps) tps = MRet s u ->
  exists2 kps', s = constructing k kps' & increasing kps'.
Proof.
rewrite /dm_addControlVertices; elim: tps kps => [|[t p] tps IH] kps inc /=.
  by move=> [<- _]; exists kps.
rewrite {2}/dm_addControlVertex /massert; case: ifP => _ /=.
  have [kps' e' inc'] := insert_raw t p inc.
  have -> : with_segs (constructing k kps) (sm_insert (Seg t p None) (ds_segs (constructing k kps)))
     = constructing k kps' by rewrite /constructing /with_segs /= e'.
  exact: IH.
by elim: tps {IH} => //= c tps IH.
Qed.

Lemma pos_canon k kps i : good k kps -> (i < size kps)%N ->
  pos_of (ds_segs (canon dbl k kps)) (AtKey (kp_knot kps i)) = Ok i.
Proof. by move=> gd hi; exact: canon_pos. Qed.
Lemma seg_ptrs_canon o k kps a b : op_sp o = canon dbl k kps -> (b <= size kps)%N ->
  seg_ptrs o a b = [seq (op_map o, kp_knot kps i) | i <- iota a (b - a)].
Proof.
move=> e hb; rewrite /seg_ptrs e; apply/eq_in_map => i; rewrite mem_iota => h.
by rewrite canon_knot_at //; move: h hb; clear; lia.
Qed.
Lemma updateDV_ok o k kps : op_sp o = canon dbl k kps -> good k kps ->
  exists2 o', opt_updateDesignVariablesVector o = Ok o' & obj_ok o' /\
    op_id o' = op_id o /\ op_map o' = op_map o.
Proof.
move=> e gd; have [k0 sz inc] := and3P gd.
rewrite /opt_updateDesignVariablesVector e.
rewrite [ds_first _]/= pos_canon //; last by move: k0 sz; clear; lia.
rewrite [ds_end _]/= /obind pos_canon //; last by move: k0 sz; clear; lia.
rewrite /collect_ptrs /ub_unless leq0n.
eexists; first by []; split=> //.
exists k, kps; split=> //; left; split=> //=.
by rewrite (seg_ptrs_canon _ e) ?leq_subr // subn0.
Qed.

Lemma init_ok o o' : obj_ok o -> opt_init dbl o = Ok o' -> obj_ok o' /\
  op_id o' = op_id o /\ op_map o' = op_map o.
Proof.
case=> k [kps [k0 [[e gd d]|[e inc d]]]]; rewrite /opt_init e; first by rewrite init_again.
have [h|h] := ltnP (size kps) (2 * k); first by rewrite init_few.
have gd : good k kps by rewrite /good k0 h inc.
rewrite initE //= => H.
have [o1 h1 h2] := @updateDV_ok (set_sp o (canon dbl k kps)) k kps erefl gd.
by move: H; rewrite h1 => -[<-].
Qed.
Lemma initConstant_ok o ts sz p o' : obj_ok o -> opt_initConstantSpline dbl mf o ts sz p = Ok o' ->
  obj_ok o' /\ op_id o' = op_id o /\ op_map o' = op_map o.
Proof.
case=> k [kps [k0 [[e gd d]|[e inc d]]]]; rewrite /opt_initConstantSpline /sm_assert e //=.
case: ifP => // _; case h: (dm_addControlVertices _ _ _) => [s u||] //=.
have [kps' es inc'] := addVertices_constructing inc h.
rewrite {}es => /init_ok; apply.
by exists k, kps'; split=> //; right.
Qed.

Lemma append_ok o ts v o' : obj_ok o -> sorted <%R (op_keys o ++ ts) ->
  opt_appendSegments dbl mf o true ts v = Ok o' ->
  obj_ok o' /\ op_id o' = op_id o /\ op_map o' = op_map o.
Proof.
case=> k [kps [k0 [[e gd d]|[e inc d]]]]; rewrite /opt_appendSegments /op_keys e; last by [].
rewrite canon_keys => srt; rewrite appendE // [mres_out _]/=.
set kps' := append_points mf k kps ts v.
have gd' : good k kps' by exact: good_append.
have [_ sz _] := and3P gd.
have ske : size kps' = (size kps + size ts)%N by exact: size_append.
have kE i : (i < size kps)%N -> kp_knot kps' i = kp_knot kps i.
  by move=> hi; rewrite !kp_knotE ?ske ?ltn_addr // keys_append nth_cat size_map hi.
rewrite [ds_end (canon dbl k kps)]/= -kE; last by move: k0 sz; clear; lia.
rewrite /obind pos_canon //; last by rewrite ske; move: k0 sz; clear; lia.
rewrite [ds_end _]/= pos_canon //; last by rewrite ske; move: k0 sz; clear; lia.
rewrite /collect_ptrs /ub_unless.
have -> : (size kps - k <= size kps' - k)%N by rewrite ske leq_sub2r ?leq_addr.
move=> [<-]; split=> //; exists k, kps'; split=> //; left; split=> //=.
rewrite (@seg_ptrs_canon _ k kps') //=; last by rewrite ske; move: k0 sz; clear; lia.
have -> : (size kps' - k = (size kps - k) + size ts)%N by rewrite ske; move: k0 sz; clear; lia.
rewrite d addKn iotaD map_cat add0n; congr (_ ++ _).
apply/eq_in_map => i; rewrite mem_iota => hi; rewrite kE //.
by move: hi k0; clear; lia.
Qed.

Lemma copy_ok o id mp o' : obj_ok o -> opt_copy o id mp = Ok o' ->
  obj_ok o' /\ op_id o' = id /\ op_map o' = mp.
Proof.
case=> k [kps [k0 [[e gd d]|[e inc d]]]]; rewrite /opt_copy e.
  rewrite copyE // /obind [ds_evaluable _]/=.
  set o1 := Opt _ _ _ _ _ _; have [o2 h1 h2] := @updateDV_ok o1 k kps erefl gd.
  by rewrite h1 => -[<-].
move=> [<-]; split=> //; exists k, kps; split=> //; right; split=> //.
Qed.

Lemma vertex_ok o t i sv v : obj_ok o -> (i < size (ds_segs (op_sp o)))%N ->
  obj_ok (set_vertex o t i sv v).
Proof.
case=> k [kps [k0 [[e gd d]|[e inc d]]]] hi.
  rewrite e size_canon in hi.
  exists k, (with_points kps i 1 (fun _ _ => v)); split=> //; left; split=> /=.
  - rewrite e canon_upd // canon_with_segs ?keys_with //; by case/and3P: gd.
  - exact: good_with.
  rewrite d size_with; apply/eq_in_map => j; rewrite mem_iota => hj.
  by rewrite knot_with //; move: hj k0; clear; lia.
rewrite e in hi; set m := seg_upd (raw_segs kps) i (fun x => set_pt x v).
exists k, (points m); split=> //; right; split=> //=.
  rewrite e /constructing /with_segs /=; congr DSpline; apply: raw_of => j.
  case: (ltnP j (size (raw_segs kps))) => hj.
    by rewrite nth_seg_upd //; case: eqP => _; rewrite /= no_basis_raw.
  by rewrite /seg_nth nth_default // size_mkseq.
by rewrite /increasing keys_points keys_seg_upd ?keys_raw.
Qed.

(* all objects *)
Definition w_ok w : Prop :=
  [/\ uniq (map (@op_id F T) (w_objs w)), uniq (map (@op_map F T) (w_objs w)) &
  forall a, (a < size (w_objs w))%N -> [/\ obj_ok (obj w a), (op_id (obj w a) < w_next w)%N &
    (op_map (obj w a) < w_next w)%N]].

Lemma w_getE w id o : w_get w id = Ok o -> (w_pos w id < size (w_objs w))%N /\ o = obj w (w_pos w id).
Proof. by rewrite /w_get /ub_unless /alive; case: ifP => // h [<-]. Qed.
Lemma map_set (f : opt -> nat) w a o : (a < size (w_objs w))%N -> f o = f (obj w a) ->
  map f (w_objs (w_set w a o)) = map f (w_objs w).
Proof.
move=> h e; apply: (@eq_from_nth _ 0%N); first by rewrite !size_map /= size_set_nth (maxn_idPr h).
move=> i; rewrite size_map /= size_set_nth (maxn_idPr h) => hi.
rewrite !(nth_map (opt0 F T)) ?size_set_nth ?(maxn_idPr h) // nth_set_nth /=.
by case: eqP => [->|].
Qed.
Lemma set_ok w a o : w_ok w -> (a < size (w_objs w))%N -> obj_ok o -> op_id o = op_id (obj w a) ->
  op_map o = op_map (obj w a) -> w_ok (w_set w a o).
Proof.
case=> u1 u2 H ha ok e1 e2; split; rewrite ?map_set // => b.
rewrite /= size_set_nth (maxn_idPr ha) => hb; have [h1 h2 h3] := H a ha.
rewrite nth_set_nth /=; case: eqP => _; last exact: H.
by rewrite e1 e2.
Qed.
Lemma call_ok w id f w' : w_ok w ->
  (forall o o', obj_ok o -> o = obj w (w_pos w id) -> f o = Ok o' ->
    obj_ok o' /\ op_id o' = op_id o /\ op_map o' = op_map o) ->
  w_call w id f = Ok w' -> w_ok w'.
Proof.
move=> ok Hf; rewrite /w_call; case g: (w_get w id) => [o||] //=; have [hp eo] := w_getE g.
case fo: (f o) => [o'||] //= [<-]; have [_ _ /(_ _ hp) [h1 _ _]] := ok.
have [|h2 [h3 h4]] := Hf o o' _ eo fo; first by rewrite eo.
by apply: set_ok; rewrite ?h3 ?h4 ?eo.
Qed.
Lemma add_ok w f w' : w_ok w ->
  (forall id mp o, f id mp = Ok o -> [/\ obj_ok o, op_id o = id & op_map o = mp]) ->
  w_add w f = Ok w' -> w_ok w'.
Proof.
case=> u1 u2 H Hf; rewrite /w_add; case fo: (f _ _) => [o||] //= [<-].
have [h1 h2 h3] := Hf _ _ _ fo; split=> /=.
- rewrite map_rcons rcons_uniq u1 andbT h2; apply/(nthP 0%N) => -[i]; rewrite size_map => hi.
  rewrite (nth_map (opt0 F T)) // => e; have [_ l _] := H i hi.
  by rewrite e ltnn in l.
- rewrite map_rcons rcons_uniq u2 andbT h3; apply/(nthP 0%N) => -[i]; rewrite size_map => hi.
  rewrite (nth_map (opt0 F T)) // => e; have [_ _ l] := H i hi.
  by rewrite e ltnNge leqnSn in l.
move=> a; rewrite size_rcons ltnS nth_rcons leq_eqVlt => /orP[/eqP->|ha].
  by rewrite ltnn eqxx h2 h3; split.
rewrite ha; have [a1 a2 a3] := H a ha; split=> //; [exact: ltn_trans a2 _|exact: ltn_trans a3 _].
Qed.

Lemma uniq_filter (f : opt -> nat) (P : pred opt) (s : seq opt) :
  uniq (map f s) -> uniq (map f (filter P s)).
Proof.
elim: s => //= x s IH /andP[h /IH u]; case: ifP => //= _; rewrite u andbT.
apply: contra h => {IH u}; elim: s => //= y s IH; case: ifP => _ /=; rewrite ?inE.
  by case/orP=> [->//|/IH->]; rewrite orbT.
by move/IH->; rewrite orbT.
Qed.
Lemma step_ok w c w' : w_ok w -> plain w c -> step w c = Ok w' -> w_ok w'.
Proof.
move=> ok; case: c => /=.
- move=> k k0 h; apply: (add_ok ok _ h) => id mp o [<-]; split=> //.
  by exists k, [::]; split=> //; right.
- move=> a t ev h; apply: (call_ok ok _ h) => o o' oo eo [<-]; split=> //.
  by apply: addKnot_ok => //; rewrite eo.
- move=> a t p ev h; apply: (call_ok ok _ h) => o o' oo eo e; split.
    by apply: (addVertex_ok oo _ e); rewrite eo.
  by move: e; rewrite /opt_addControlVertex; case: (mres_out _) => //= s [<-].
- by move=> a _ h; apply: (call_ok ok _ h) => o o' oo eo e; exact: init_ok.
- by move=> a ts sz p _ h; apply: (call_ok ok _ h) => o o' oo eo e; exact: initConstant_ok e.
- by [].
- by [].
- move=> a ts v srt h; apply: (call_ok ok _ h) => o o' oo eo e; apply: (append_ok oo _ e).
  by rewrite eo.
- move=> b _; case g: (w_get w b) => [o||] //= h; have [hp eo] := w_getE g.
  have [_ _ /(_ _ hp) [oo _ _]] := ok; rewrite -eo in oo.
  by apply: (add_ok ok _ h) => id mp o' e; have [h1 [h2 h3]] := copy_ok oo e.
- by [].
- move=> a _; rewrite /ub_unless; case: ifP => // _ [<-]; case: ok => u1 u2 H.
  split=> /=.
  + exact: uniq_filter.
  + exact: uniq_filter.
  move=> b hb; set s := filter _ _ in hb *.
  have [i hi ->] : exists2 i, (i < size (w_objs w))%N & nth (opt0 F T) s b = obj w i.
    rewrite {}/s in hb *; move: (w_objs w) hb {u1 u2 H} => s; elim: s b => [|x s IH] b //=.
    case: ifP => _; last by move/IH=> [i h1 h2]; exists i.+1.
    case: b => [|b]; first by exists 0%N.
    by rewrite /= ltnS => /IH[i h1 h2]; exists i.+1.
  exact: H.
- move=> p dp _; rewrite /dv_update; case h: (w_seg w p) => [[a i]||] //=.
  rewrite /ub_unless; case: ifP => // _ [<-]; have [h1 _ h2 _ _] := w_seg_lt h.
  by case: (ok) => _ _ /(_ a h1) [oo _ _]; apply: set_ok => //; apply: vertex_ok.
- move=> p _; rewrite /dv_revert; case h: (w_seg w p) => [[a i]||] //=.
  case: (op_saved _ _) => // v [<-]; have [h1 _ h2 _ _] := w_seg_lt h.
  by case: (ok) => _ _ /(_ a h1) [oo _ _]; apply: set_ok => //; apply: vertex_ok.
- move=> p v _; rewrite /dv_setParameters; case h: (w_seg w p) => [[a i]||] //= [<-].
  have [h1 _ h2 _ _] := w_seg_lt h.
  by case: (ok) => _ _ /(_ a h1) [oo _ _]; apply: set_ok => //; apply: vertex_ok.
Qed.
Lemma reached_ok w : reached dbl mf mf_update w -> w_ok w.
Proof. by elim=> // {}w c w' _; exact: step_ok. Qed.

(* what the variables of an initialised spline are *)
Lemma ok_canon w a : w_ok w -> (a < size (w_objs w))%N -> ds_evaluable (op_sp (obj w a)) ->
  exists k kps, [/\ op_sp (obj w a) = canon dbl k kps, good k kps &
    op_dvs (obj w a) = [seq (op_map (obj w a), kp_knot kps i) | i <- iota 0 (size kps - k)]].
Proof.
case=> _ _ H ha; have [[k [kps [k0 [h|[e _ _]]]]] _ _] := H a ha; last by rewrite e.
by exists k, kps.
Qed.
Lemma w_seg_own w a k kps i : w_ok w -> (a < size (w_objs w))%N ->
  op_sp (obj w a) = canon dbl k kps -> good k kps -> (i < size kps)%N ->
  w_seg w (op_map (obj w a), kp_knot kps i) = Ok (a, i).
Proof.
case=> u1 u2 H ha e gd hi; rewrite /w_seg /=.
have fa : find (fun o : opt => op_map o == op_map (obj w a)) (w_objs w) = a.
  rewrite (_ : find _ _ = index (op_map (obj w a)) (map (@op_map F T) (w_objs w))).
    by rewrite -(nth_map _ 0%N) // index_uniq // size_map.
  by rewrite /index find_map; apply: eq_find.
rewrite fa /ub_unless ha e.
have := pos_canon gd hi; rewrite /pos_of /=.
by rewrite /ub_unless; case: ifP => // h [->].
Qed.
Lemma own_ok w a : w_ok w -> (a < size (w_objs w))%N -> ds_evaluable (op_sp (obj w a)) ->
  own_variables w a.
Proof.
move=> ok ha ev; have [k [kps [e gd d]]] := ok_canon ok ha ev.
have [k0 sz inc] := and3P gd.
have nE : opt_numDesignVariables (obj w a) = (size kps - k)%N.
  by rewrite /opt_numDesignVariables d size_map size_iota.
split.
- by rewrite nE e numCVE.
- by rewrite nE e size_canon leq_subr.
- rewrite d map_inj_in_uniq ?iota_uniq // => i j; rewrite !mem_iota => hi hj [].
  have u := sorted_uniq_keys inc; rewrite !kp_knotE; [|by move: hi hj; clear; lia..].
  move/eqP; rewrite nth_uniq ?size_map //; [by move/eqP|by move: hi hj; clear; lia..].
move=> i; rewrite nE => hi; exists (op_map (obj w a), kp_knot kps i); split.
  rewrite /opt_designVariable /sm_assert -/(opt_numDesignVariables _) nE hi d.
  by rewrite (nth_map 0%N) ?size_iota // nth_iota.
by apply: w_seg_own e gd _ => //; move: hi; clear; lia.
Qed.

Lemma reached_run cs w w' : reached dbl mf mf_update w -> plain_run dbl mf mf_update w cs ->
  w_run dbl mf mf_update w cs = Ok w' -> reached dbl mf mf_update w'.
Proof.
elim: cs w => [|c cs IH] w R /=; first by move=> _ [<-].
case/andP=> pl; case e: (w_step _ _ _ _ _) => [w1||] //= h1 h2.
exact: IH (reached_step R pl e) h1 h2.
Qed.

(* without destroyed objects every variable can be updated *)
Definition owners w : Prop :=
  forall a t, (a < size (w_objs w))%N -> alive w (op_owner (obj w a) t).
Lemma aliveE w id : alive w id = (id \in map (@op_id F T) (w_objs w)).
Proof.
rewrite /alive /w_pos; elim: (w_objs w) => //= o s IH; rewrite inE eq_sym.
by case: (_ == _); rewrite //= ltnS IH.
Qed.
Lemma owners_set w b o : owners w -> (b < size (w_objs w))%N -> op_id o = op_id (obj w b) ->
  (forall t, alive w (op_owner o t)) -> owners (w_set w b o).
Proof.
move=> H hb ei Ho a t; rewrite /= size_set_nth (maxn_idPr hb) => ha.
rewrite aliveE map_set // -aliveE nth_set_nth /=; case: eqP => _; [exact: Ho|exact: H].
Qed.
Lemma owners_call w id f w' : w_ok w -> owners w ->
  (forall o o', (forall t, alive w (op_owner o t)) -> alive w (op_id o) -> f o = Ok o' ->
     op_id o' = op_id o /\ forall t, alive w (op_owner o' t)) ->
  w_call w id f = Ok w' -> owners w'.
Proof.
move=> ok H Hf; rewrite /w_call; case g: (w_get w id) => [o||] //=; have [hp eo] := w_getE g.
case fo: (f o) => [o'||] //= [<-].
have [||h1 h2] := Hf o o' _ _ fo.
- by move=> t; rewrite eo; exact: H.
- by rewrite aliveE eo -(nth_map _ 0%N) // mem_nth ?size_map.
by apply: owners_set => //; rewrite h1 eo.
Qed.
Lemma owners_add w f w' : owners w ->
  (forall id mp o, f id mp = Ok o -> op_id o = id /\
     forall t, op_owner o t = id \/ alive w (op_owner o t)) ->
  w_add w f = Ok w' -> owners w'.
Proof.
move=> H Hf; rewrite /w_add; case fo: (f _ _) => [o||] //= [<-].
have [h1 h2] := Hf _ _ _ fo; move=> a t /=; rewrite size_rcons ltnS aliveE /= map_rcons mem_rcons inE.
rewrite nth_rcons leq_eqVlt => /orP[/eqP->|ha].
  rewrite ltnn eqxx; case: (h2 t) => [->|]; first by rewrite h1 eqxx.
  by rewrite aliveE => ->; rewrite orbT.
by rewrite ha -aliveE H ?orbT.
Qed.
Lemma owners_vertex w p a i sv v : owners w -> w_seg w p = Ok (a, i) ->
  owners (w_set w a (set_vertex (obj w a) p.2 i sv v)).
Proof.
move=> H h; have [ha _ _ _ _] := w_seg_lt h; apply: owners_set => // t; exact: H.
Qed.
Lemma owners_set_sp o s (P : nat -> Prop) : (forall t, P (op_owner o t)) -> P (op_id o) ->
  forall t, P (op_owner (set_sp o s) t).
Proof. by move=> h1 h2 t /=; case: ifP. Qed.
Lemma updateDV_owner o o' : opt_updateDesignVariablesVector o = Ok o' ->
  op_id o' = op_id o /\ op_owner o' = op_owner o.
Proof.
rewrite /opt_updateDesignVariablesVector; case: (pos_of _ _) => //= x; case: (pos_of _ _) => //= y.
by rewrite /collect_ptrs /ub_unless; case: ifP => // _ [<-].
Qed.
Lemma init_owner o o' (P : nat -> Prop) : (forall t, P (op_owner o t)) -> P (op_id o) ->
  opt_init dbl o = Ok o' -> op_id o' = op_id o /\ forall t, P (op_owner o' t).
Proof.
move=> h1 h2; rewrite /opt_init; case: (mres_out _) => //= s /updateDV_owner[-> ->].
by split=> // t; exact: owners_set_sp.
Qed.
Lemma owners_step w c w' : w_ok w -> owners w -> (if c is WDestroy _ then false else true) ->
  plain w c -> step w c = Ok w' -> owners w'.
Proof.
move=> ok H nd; case: c nd => //=.
- by move=> k _ k0 h; apply: (owners_add H _ h) => id mp o [<-]; split=> // t; left.
- move=> a t _ ev h; apply: (owners_call ok H _ h) => o o' h1 h2 [<-]; split=> //.
  exact: (owners_set_sp _ (P := fun x => alive w x) h1 h2).
- move=> a t p _ ev h; apply: (owners_call ok H _ h) => o o' h1 h2.
  rewrite /opt_addControlVertex; case: (mres_out _) => //= s [<-]; split=> //.
  exact: (owners_set_sp s (P := fun x => alive w x) h1 h2).
- by move=> a _ _ h; apply: (owners_call ok H _ h) => o o' h1 h2; exact: (init_owner (P := fun x => alive w x) h1 h2).
- move=> a ts sz p _ _ h; apply: (owners_call ok H _ h) => o o' h1 h2.
  rewrite /opt_initConstantSpline /sm_assert; case: ifP => // _; case: ifP => // _.
  case: (mres_out _) => //= s e; have := init_owner (P := fun x => alive w x) _ _ e; apply=> //.
  exact: (owners_set_sp s (P := fun x => alive w x) h1 h2).
- move=> a ts v _ srt h; apply: (owners_call ok H _ h) => o o' h1 h2.
  rewrite /opt_appendSegments; case: (mres_out _) => //= s; case: (pos_of _ _) => //= x.
  case: (pos_of _ _) => //= y; rewrite /collect_ptrs /ub_unless; case: ifP => // _ [<-]; split=> //.
  exact: (owners_set_sp s (P := fun x => alive w x) h1 h2).
- move=> b _ _; case g: (w_get w b) => [o||] //= h; have [hp eo] := w_getE g.
  apply: (owners_add H _ h) => id mp o'; rewrite /opt_copy; case: (dm_copy _) => //= s.
  case: ifP => _; first by case/updateDV_owner=> -> ->; split=> // t; right; rewrite eo; exact: H.
  by case=> <-; split=> // t; right; rewrite eo; exact: H.
- move=> p dp _ _; rewrite /dv_update; case h: (w_seg w p) => [[a i]||] //=.
  by rewrite /ub_unless; case: ifP => // _ [<-]; exact: owners_vertex.
- move=> p _ _; rewrite /dv_revert; case h: (w_seg w p) => [[a i]||] //=.
  by case: (op_saved _ _) => // v [<-]; exact: owners_vertex.
- move=> p v _ _; rewrite /dv_setParameters; case h: (w_seg w p) => [[a i]||] //= [<-].
  exact: owners_vertex.
Qed.
Lemma alive_reached w : reached_alive dbl mf mf_update w -> reached dbl mf mf_update w /\ owners w.
Proof.
elim=> [|{}w c w' _ [R H] pl nd st]; first by split=> //; exact: reached_new.
split; first exact: reached_step R pl st.
exact: owners_step (reached_ok R) H nd pl st.
Qed.
Lemma alive_usable w a i : reached_alive dbl mf mf_update w -> (a < size (w_objs w))%N ->
  ds_evaluable (op_sp (obj w a)) -> (i < opt_numDesignVariables (obj w a))%N ->
  exists p, opt_designVariable (obj w a) i = Ok p /\ usable w p.
Proof.
move=> RA ha ev hi; have [R H] := alive_reached RA.
have [_ _ _ /(_ i hi) [p [h1 h2]]] := own_ok (reached_ok R) ha ev.
by exists p; split=> //; exists a, i; split=> //; exact: H.
Qed.
End World.
