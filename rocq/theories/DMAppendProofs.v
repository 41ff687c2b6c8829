(* Appending segments to an initialised manifold spline. *)
From mathcomp Require Import all_ssreflect all_algebra.
From mathcomp.algebra_tactics Require Import ring.
From mathcomp.zify Require Import zify.
From Verif Require Import Prelude CoxDeBoor DMModel DMSpec DMProofs.
Set Implicit Arguments.
Unset Strict Implicit.
Unset Printing Implicit Defensive.
Import GRing.Theory Num.Theory Order.Theory.
Local Open Scope ring_scope.

#[local] Arguments pos_of : simpl never.
#[local] Arguments deref : simpl never.
#[local] Arguments iter_next : simpl never.

Section Append.
Variables (F : realFieldType) (T : realDomainType).
Variables (dbl : T -> F) (mf : manifold F).
Implicit Types (m : seq (seg F T)) (kps : seq (T * vec F)) (ts : seq T).
Notation keys m := (map (@sg_knot F T) m).
Notation raw ts := [seq Seg t (mf_default mf) None | t <- ts].

Lemma sm_insert_end (x : seg F T) m : all (fun t => t < sg_knot x) (keys m) ->
  sm_insert x m = rcons m x.
Proof.
elim: m => [//|y m IH] /= /andP[h1 h2].
by rewrite (lt_gtF h1) h1 IH.
Qed.

Lemma append_loopE ts (value : option (vec F)) (s : dspline F T) e it :
  sorted <%R (keys (ds_segs s) ++ ts) -> (e < size (ds_segs s))%N ->
  (isSome value -> it = AtKey (nth 0 (keys (ds_segs s)) e)) ->
  dm_append_loop mf ts value s (AtKey (nth 0 (keys (ds_segs s)) e)) it =
  MRet (with_segs s (mkseq (fun i =>
     let x := seg_nth (ds_segs s ++ raw ts) i in
     if (e <= i < e + size ts)%N then (if value is Some v then set_pt x v else x) else x)
       (size (ds_segs s) + size ts)))
     (AtKey (nth 0 (keys (ds_segs s) ++ ts) (e + size ts))).
Proof.
elim: ts s e it => [|t ts IH] s e it /=.
  rewrite !cats0 !addn0 => srt he hit; congr MRet; case: s {srt he hit} => k ev m b en f.
  congr DSpline; rewrite /=; apply: segs_eq; rewrite ?size_mkseq // => i h.
  by rewrite [RHS]/seg_nth nth_mkseq //; case: ifP => //; lia.
set m := ds_segs s => srt he hit.
have srt1 : sorted <%R (keys m) by move: srt => /cat_sorted2[].
have allt : all (fun u => u < t) (keys m).
  apply/allP => u uk; move: srt; rewrite sorted_pairwise; last exact: lt_trans.
  by rewrite pairwise_cat => /andP[/allrelP/(_ u t uk (mem_head _ _))] h _; exact: h.
have insE : sm_insert (Seg t (mf_default mf) None) m = rcons m (Seg t (mf_default mf) None).
  exact: sm_insert_end.
set m1 := rcons m _ in insE.
have k1 : keys m1 = rcons (keys m) t by rewrite map_rcons.
have s1 : size m1 = (size m).+1 by rewrite size_rcons.
have srt2 : sorted <%R (keys m1) by move: srt; rewrite -cat_rcons -k1 => /cat_sorted2[].
have u1 := sorted_uniq_keys srt2.
have ke : nth 0 (keys m) e = nth 0 (keys m1) e by rewrite k1 nth_rcons size_map he.
rewrite ke insE (iter_nextE (i := e)) ?s1 //= ?ltnS //.
have srt3 : sorted <%R (keys m1 ++ ts) by rewrite k1 cat_rcons.
have ks2 : keys m ++ t :: ts = keys m1 ++ ts by rewrite k1 cat_rcons.
have ss2 : (size m + (size ts).+1 = size m1 + size ts)%N by rewrite s1 addSnnS.
have es2 : (e + (size ts).+1 = e.+1 + size ts)%N by rewrite addSnnS.
have nthE i : seg_nth (m ++ Seg t (mf_default mf) None :: raw ts) i = seg_nth (m1 ++ raw ts) i.
  by rewrite /m1 cat_rcons.
case: value IH hit => [v|] IH hit.
  rewrite (hit isT) ke (derefE (i := e)) //=; last by rewrite s1; lia.
  set s2 := with_segs _ (seg_upd _ _ _).
  have k2 : keys (ds_segs s2) = keys m1 by rewrite keys_seg_upd.
  rewrite (iter_nextE (i := e)) ?keys_seg_upd ?size_seg_upd ?s1 //= ?ltnS //.
  rewrite -{1 2}k2 IH; last 3 first.
  - by rewrite k2.
  - by rewrite /= size_seg_upd s1.
  - by rewrite k2.
  rewrite k2 ks2 es2; congr MRet; rewrite /with_segs /=; congr DSpline.
  rewrite size_seg_upd ss2; apply: eq_mkseqP => i h.
  rewrite nthE /seg_nth !nth_cat size_seg_upd; case: (ltnP i (size m1)) => h1.
    rewrite -!/(seg_nth _ _) nth_seg_upd //.
    case: (eqVneq i e) => [->|ne].
      have -> : (e < e < e.+1 + size ts)%N = false by lia.
      by have -> : (e <= e < e.+1 + size ts)%N by lia.
    by have -> : (e < i < e.+1 + size ts)%N = (e <= i < e.+1 + size ts)%N by lia.
  by have -> : (e < i < e.+1 + size ts)%N = (e <= i < e.+1 + size ts)%N by lia.
set s2 := dm_addKnot _ _ _.
have m2 : ds_segs s2 = m1 by rewrite /= insE.
rewrite -{1}m2 IH ?m2 //; last by rewrite s1; lia.
rewrite ks2 es2; congr MRet; rewrite /with_segs /=; congr DSpline.
rewrite ss2; apply: eq_mkseqP => i h.
by rewrite nthE !if_same.
Qed.

Lemma size_append k kps ts value : size (append_points mf k kps ts value) = (size kps + size ts)%N.
Proof. by rewrite size_mkseq size_cat size_map. Qed.
Lemma keys_append k kps ts value :
  map fst (append_points mf k kps ts value) = map fst kps ++ ts.
Proof.
have -> : map fst kps ++ ts = map fst (kps ++ [seq (t, mf_default mf) | t <- ts]).
  by rewrite map_cat -[X in _ ++ X = _]map_id -map_comp.
apply: (@eq_from_nth _ 0); first by rewrite !size_map size_iota.
move=> i; rewrite size_map size_mkseq => h.
by rewrite !(nth_map kp0) ?size_mkseq // nth_mkseq.
Qed.

Lemma appendE k kps ts value : good k kps -> sorted <%R (map fst kps ++ ts) ->
  dm_appendSegments dbl mf (canon dbl k kps) true ts value =
  MRet (canon dbl k (append_points mf k kps ts value))
       (kp_knot (append_points mf k kps ts value) (size kps + size ts - k)).
Proof.
case/and3P=> k0 sz srt0 srt.
have sc : size (mkseq (canon_seg dbl k kps) (size kps)) = size kps by rewrite size_mkseq.
rewrite /dm_appendSegments /= sc getMoved_down //=; last by lia.
rewrite (pos_of_key (i := (size kps - k)%N)) ?keys_canon ?sc; last 3 first.
- exact: sorted_uniq_keys.
- by lia.
- by rewrite kp_knotE //; lia.
rewrite /= /massert eqxx /iter_at sc.
have -> : (size kps - k < size kps)%N by lia.
have -> : (0 < size kps)%N by lia.
rewrite !knot_atE ?sc ?keys_canon; [|lia..].
rewrite kp_knotE; last by lia.
set cs := canon dbl k kps; set e := (size kps - k)%N.
have kc : keys (ds_segs cs) = map fst kps by rewrite keys_canon.
rewrite -{1 2}kc (append_loopE (e := e)) ?kc //=; last by rewrite sc; lia.
set m1 := mkseq _ (_ + size ts).
have sm1 : size m1 = (size kps + size ts)%N by rewrite size_mkseq sc.
have km1 : keys m1 = map fst kps ++ ts.
  apply: (@eq_from_nth _ 0); rewrite size_map sm1 ?size_cat ?size_map // => i h.
  rewrite -knot_atE ?sm1 // /knot_at {1}/seg_nth nth_mkseq ?sc //=.
  set x := seg_nth _ i.
  have -> : sg_knot (if (e <= i < e + size ts)%N then match value with
      | Some v => set_pt x v | None => x end else x) = sg_knot x.
    by case: ifP => _ //; case: value {m1 sm1}.
  have -> : map fst kps ++ ts = keys (mkseq (canon_seg dbl k kps) (size kps) ++ raw ts).
    by rewrite map_cat keys_canon -map_comp map_id.
  by rewrite -knot_atE // size_cat sc size_map.
have um1 : uniq (keys m1) by rewrite km1; apply: sorted_uniq_keys.
have nth0 i : (i < size kps)%N -> nth 0 (map fst kps) i = nth 0 (keys m1) i.
  by move=> h; rewrite km1 nth_cat size_map h.
have kpE i : (i < size kps + size ts)%N ->
    kp_knot (append_points mf k kps ts value) i = nth 0 (keys m1) i.
  by move=> h; rewrite kp_knotE ?size_append // keys_append km1.
have kp0E i : (i < size kps)%N -> kp_knot kps i = nth 0 (keys m1) i.
  by move=> h; rewrite kp_knotE // nth0.
rewrite kp0E -/e; last by lia.
rewrite nth0 -?km1; last by lia.
rewrite (pos_of_key (i := e)) ?sm1 //; last by lia.
rewrite /= (pos_of_key (i := (e + size ts)%N)) ?sm1 //; last by lia.
rewrite /= (pos_of_key (i := 0%N)) ?sm1 //; last by lia.
rewrite [LHS]/=; case: (eqVneq e (e + size ts)%N) => [e0|ne] /=.
  have ts0 : ts = [::] by apply: size0nil; lia.
  rewrite /dm_getMaxTime /= kp0E -/e; last by lia.
  rewrite (derefE (i := e)) ?sm1 //; last by lia.
  rewrite /= knot_atE ?sm1; last by lia.
  rewrite kpE; last by lia.
  have -> : (size kps + size ts - k = e)%N by lia.
  congr MRet; rewrite /with_segs /= /canon size_append.
  rewrite !kpE; [|lia..]; rewrite !kp0E; [|lia..].
  have -> : (size kps + size ts - k = e)%N by lia.
  congr DSpline; rewrite /m1 sc; apply: eq_mkseqP => i; rewrite ts0 addn0 => h.
  have -> : (e <= i < e + 0)%N = false by lia.
  rewrite cats0 nth_canon // /canon_seg /window -ts0 size_append keys_append kpE; last by lia.
  rewrite kp0E // /append_points ts0 !cats0 addn0 nth_mkseq //= addn0.
  by have -> : (size kps - k <= i < size kps - k)%N = false by lia.
rewrite -[-1]/(- 1%N%:Z) getMoved_down /=; last by lia.
have -> : k%:Z - 1 = (k - 1)%N%:Z by lia.
rewrite getMoved_down /=; last by lia.
rewrite initBasisAtE /=; last 5 first.
- by [].
- by rewrite km1.
- by rewrite km1 size_cat size_map; lia.
- by lia.
- by congr (AtKey (nth _ _ _)); rewrite km1 size_cat size_map; lia.
rewrite /dm_getMaxTime /=.
set m2 := mkseq _ (size m1).
have sm2 : size m2 = size m1 by rewrite size_mkseq.
have m2E : m2 = mkseq (canon_seg dbl k (append_points mf k kps ts value)) (size kps + size ts).
  rewrite /m2 sm1; apply: eq_mkseqP => i h.
  have skm : size (keys m1) = (size kps + size ts)%N by rewrite size_map sm1.
  rewrite skm /canon_seg /window size_append keys_append -km1 kpE //.
  have m1i : seg_nth m1 i = Seg (nth 0 (keys m1) i)
       (nth kp0 (append_points mf k kps ts value) i).2
       (if (k <= i.+1)%N && (i + k < size kps)%N
        then Some (dm_M dbl (nth 0 (take (2 * k) (drop (i.+1 - k) (map fst kps)))) (k - 1) k)
        else None).
    rewrite -knot_atE ?sm1 // /knot_at {1 2}/seg_nth !nth_mkseq ?sc ?size_cat ?size_map //=.
    have catE : seg_nth (mkseq (canon_seg dbl k kps) (size kps) ++ raw ts) i =
       Seg (kp_knot (kps ++ [seq (t, mf_default mf) | t <- ts]) i)
           (nth kp0 (kps ++ [seq (t, mf_default mf) | t <- ts]) i).2
           (if (k <= i.+1)%N && (i + k < size kps)%N
            then Some (dm_M dbl (nth 0 (take (2 * k) (drop (i.+1 - k) (map fst kps)))) (k - 1) k)
            else None).
      rewrite /seg_nth /kp_knot !nth_cat sc; case: (ltnP i (size kps)) => h1.
        by rewrite -/(seg_nth _ _) nth_canon.
      have -> : (i + k < size kps)%N = false by lia.
      have h2 : (i - size kps < size ts)%N by lia.
      by rewrite andbF !(nth_map 0 _ _ h2).
    rewrite catE -/e; case: ifP => // _.
    by case: value {m1 sm1 km1 um1 nth0 kpE kp0E ne m2 sm2 skm catE}.
  rewrite m1i /set_basis /=.
  case: (leqP (e - 1) i) => h1 /=.
    have -> : (k <= i.+1)%N by lia.
    rewrite /=; case: ifP => h2 //.
    by have -> : (i + k < size kps)%N = false by lia.
  have -> : (i + k < size kps)%N by lia.
  have -> : (i + k < size kps + size ts)%N by lia.
  rewrite !andbT; congr Seg; case: ifP => // h2.
  congr (Some (dm_M _ (nth 0 _) _ _)).
  rewrite km1 drop_cat size_map.
  have -> : (i.+1 - k < size kps)%N by lia.
  rewrite take_cat size_drop size_map.
  have [|] := ltnP (2 * k) (size kps - (i.+1 - k)) => // h3.
  rewrite take_oversize ?size_drop ?size_map // -[LHS]cats0; congr (_ ++ _).
  have -> : (2 * k - (size kps - (i.+1 - k)) = 0)%N by lia.
  by rewrite take0.
have k2 : keys m2 = keys m1.
  by rewrite m2E -(size_append k kps ts value) keys_canon keys_append km1.
rewrite (derefE (i := (e + size ts)%N)) ?k2 ?sm2 ?sm1 //; last by lia.
rewrite /= knot_atE ?sm2 ?sm1; last by lia.
rewrite k2 kpE; last by lia.
have ee : (size kps + size ts - k = e + size ts)%N by lia.
rewrite ee m2E; congr MRet; rewrite /with_segs /set_end /= /canon size_append ee.
by rewrite !kpE ?kp0E; try lia.
Qed.
End Append.
