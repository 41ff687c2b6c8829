(* Construction histories of the manifold spline: any sequence of addKnot/addControlVertex
   calls gives the sorted list of distinct knots, with the first point of every knot. *)
From mathcomp Require Import all_ssreflect all_algebra.
From mathcomp.algebra_tactics Require Import ring.
From mathcomp.zify Require Import zify.
From Verif Require Import Prelude CoxDeBoor DMModel DMSpec DMProofs.
Set Implicit Arguments.
Unset Strict Implicit.
Unset Printing Implicit Defensive.
Import GRing.Theory Num.Theory Order.Theory.
Local Open Scope ring_scope.

Section Construct.
Variables (F : realFieldType) (T : realDomainType).
Variables (dbl : T -> F) (mf : manifold F).
Implicit Types (ks : seq T) (os : seq (cop F T)).

Fixpoint ins (t : T) ks : seq T :=
  if ks is u :: ks' then
    if t < u then t :: ks else if u < t then u :: ins t ks' else ks
  else [:: t].

Definition mk (g : T -> vec F) ks : seq (seg F T) := [seq Seg u (g u) None | u <- ks].

Lemma mem_ins t ks : ins t ks =i t :: ks.
Proof.
elim: ks => [//|u ks IH] x /=; case: ltP => // h1.
case: ltP => h2; first by rewrite in_cons IH !in_cons orbCA.
have -> : t = u by apply/eqP; rewrite eq_le h1 h2.
by rewrite !in_cons orbA orbb.
Qed.
Lemma sorted_ins t ks : sorted <%R ks -> sorted <%R (ins t ks).
Proof.
elim: ks => [//|u ks IH] /= p; case: ltP => h1 /=; first by rewrite h1.
case: ltP => h2 //=; rewrite path_min_sorted; first by apply: IH; apply: path_sorted p.
apply/allP => x; rewrite mem_ins in_cons => /orP[/eqP -> //|].
by move: p => /(order_path_min lt_trans) /allP; apply.
Qed.
Lemma ins_id t ks : sorted <%R ks -> t \in ks -> ins t ks = ks.
Proof.
elim: ks => [//|u ks IH] /= p; rewrite in_cons => /orP[/eqP ->|tk].
  by rewrite ltxx.
have := order_path_min lt_trans p => /allP /(_ t tk) ut.
by rewrite (lt_gtF ut) ut IH //; apply: path_sorted p.
Qed.

Lemma sm_insert_mk t p (g g' : T -> vec F) ks : sorted <%R ks ->
  (t \notin ks -> g' t = p) -> (forall u, u \in ks -> g' u = g u) ->
  sm_insert (Seg t p None) (mk g ks) = mk g' (ins t ks).
Proof.
elim: ks => [|u ks IH] /= s gt gu; first by rewrite gt.
case: ltP => h1 /=.
  rewrite gt; last first.
    rewrite in_cons negb_or lt_eqF //=; apply/negP => tk.
    have := order_path_min lt_trans s => /allP /(_ t tk) ut.
    by move: (lt_trans h1 ut); rewrite ltxx.
  congr (_ :: _); rewrite gu ?mem_head //; congr (_ :: _).
  by apply/eq_in_map => x xk; rewrite gu // in_cons xk orbT.
case: ltP => h2 /=.
  rewrite gu ?mem_head //; congr (_ :: _); apply: IH.
  - exact: path_sorted s.
  - by move=> tk; apply: gt; rewrite in_cons negb_or gt_eqF.
  - by move=> x xk; apply: gu; rewrite in_cons xk orbT.
rewrite gu ?mem_head //; congr (_ :: _).
by apply/eq_in_map => x xk; rewrite gu // in_cons xk orbT.
Qed.

Definition acc_times os : seq T := [seq cop_time o | o <- os & accepted mf o].

Lemma first_point_rcons os o u : first_point mf (rcons os o) u =
  if u \in acc_times os then first_point mf os u
  else if accepted mf o && (cop_time o == u) then
    match o with AddKnot _ => mf_default mf | AddVertex _ p => p end
  else mf_default mf.
Proof.
rewrite /first_point -cats1 find_cat.
have hasE : has (fun o => accepted mf o && (cop_time o == u)) os = (u \in acc_times os).
  rewrite /acc_times; elim: os => [//|x os IH] /=; rewrite IH.
  by case: (accepted mf x) => //=; rewrite in_cons eq_sym.
rewrite hasE; case: ifP => h.
  by rewrite nth_cat -has_find hasE h.
by rewrite nth_cat ltnNge leq_addr addKn /=; case: ifP.
Qed.

Lemma constructE k os :
  run_cops mf (@dm_new F T k) os = constructing k (knot_points mf os).
Proof.
rewrite /constructing.
have -> : raw_segs (knot_points mf os) = mk (first_point mf os) (knot_list mf os).
  by rewrite /raw_segs -map_comp.
suff H : exists2 ks, run_cops mf (@dm_new F T k) os =
     DSpline k false (mk (first_point mf os) ks) Singular Singular Singular
   & sorted <%R ks /\ ks =i acc_times os.
  case: H => ks -> [s m]; congr (DSpline _ _ (mk _ _) _ _ _).
  apply: (irr_sorted_eq lt_trans ltxx) => //.
    by rewrite lt_sorted_uniq_le sort_uniq undup_uniq sort_sorted //; apply: le_total.
  by move=> x; rewrite m mem_sort mem_undup.
elim/last_ind: os => [|os o [ks IH [s m]]]; first by exists [::].
have -> : run_cops mf (dm_new F T k) (rcons os o) = run_cop mf (run_cops mf (dm_new F T k) os) o.
  by rewrite /run_cops -cats1 foldl_cat.
rewrite IH.
have atE : acc_times (rcons os o) = acc_times os ++ (if accepted mf o then [:: cop_time o] else [::]).
  by rewrite /acc_times -cats1 filter_cat map_cat /=; case: ifP.
have gE p : (forall u, cop_time o == u -> first_point mf (rcons os o) u
                = if u \in ks then first_point mf os u else p) -> accepted mf o ->
   exists2 ks0 : seq T,
    DSpline k false (sm_insert (Seg (cop_time o) p None) (mk (first_point mf os) ks))
       Singular Singular Singular
     = DSpline k false (mk (first_point mf (rcons os o)) ks0) Singular Singular Singular
    & sorted <%R ks0 /\ ks0 =i acc_times (rcons os o).
  move=> gp ac; exists (ins (cop_time o) ks).
    congr DSpline; apply: sm_insert_mk => //.
      by move=> /negbTE h; rewrite gp // h.
    by move=> u uk; rewrite first_point_rcons -m uk.
  split; first exact: sorted_ins.
  by move=> x; rewrite mem_ins atE ac mem_cat -m in_cons mem_seq1 orbC.
case: o atE gE => [t|t p] atE gE /=.
  by apply: gE => // u /= /eqP <-; rewrite first_point_rcons -m /= eqxx.
rewrite /dm_addControlVertex /massert /=; case: ifP => ac.
  by apply: gE => // u /= /eqP <-; rewrite first_point_rcons -m /= ac eqxx.
exists ks; last by split=> // x; rewrite atE /= ac cats0 m.
congr DSpline; apply/eq_in_map => u uk; rewrite first_point_rcons -m uk //.
Qed.

Lemma sorted_knot_list os : sorted <%R (knot_list mf os).
Proof. by rewrite lt_sorted_uniq_le sort_uniq undup_uniq sort_sorted //; apply: le_total. Qed.
Lemma keys_knot_points os : map fst (knot_points mf os) = knot_list mf os.
Proof. by rewrite -map_comp map_id. Qed.
Lemma size_knot_points os : size (knot_points mf os) = size (knot_list mf os).
Proof. by rewrite size_map. Qed.
Lemma increasing_knot_points os : increasing (knot_points mf os).
Proof. by rewrite /increasing keys_knot_points sorted_knot_list. Qed.
End Construct.
