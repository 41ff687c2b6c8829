(* Uniform appending, constant splines with a knot distance, predefined knots. *)
From mathcomp Require Import all_ssreflect all_algebra.
From mathcomp.algebra_tactics Require Import ring.
From mathcomp.zify Require Import zify.
From Verif Require Import Prelude DMModel DMSpec DMProofs DMAppendProofs DMEvalProofs
  DMAccessProofs DMCurveProofs DMMainProofs KnotModel KnotProofs KnotMainProofs KnotFreeSpec.
Set Implicit Arguments.
Unset Strict Implicit.
Unset Printing Implicit Defensive.
Import GRing.Theory Num.Theory Order.Theory.
Local Open Scope ring_scope.

Lemma mkseqSl (A : Type) (f : nat -> A) m : mkseq f m.+1 = f 0%N :: mkseq (fun i => f i.+1) m.
Proof. by rewrite /mkseq /= (iotaDl 1 0) -map_comp. Qed.

Section Draw.
Variable T : realDomainType.
Implicit Types (g : delta_gen T).

Lemma dg_drawE m g : dg_draw m g =
  (DeltaGen (dg_order g) (dg_delta g) (dg_last g + dg_delta g *+ m) (dg_beyond g),
   mkseq (fun i => dg_last g + dg_delta g *+ i.+1) m).
Proof.
elim: m g => [|m IH] g; first by case: g => a b c d /=; rewrite addr0.
rewrite /= IH /= /addScaledDuration mulr1z -addrA -mulrS; congr (_, _).
rewrite mkseqSl mulr1n; congr (_ :: _); apply: eq_mkseq => i /=.
by rewrite -addrA -mulrS.
Qed.
End Draw.

Section Uniform.
Variables (F : realFieldType) (T : realDomainType) (dbl : T -> F) (mf : manifold F).
Variables (k : nat) (kps : seq (T * vec F)).
Hypothesis gd : good k kps.
Notation n := (size kps).
Notation kk := (kp_knot kps).

(* the knots appended by appendSegmentsUniformly *)
Definition uniform_knots (m : nat) : seq T :=
  mkseq (fun i => kk n.-1 + (kk n.-1 - kk n.-2) *+ i.+1) m.

Let k0 : (0 < k)%N. Proof. by case/and3P: gd. Qed.
Let sz : (2 * k <= n)%N. Proof. by case/and3P: gd. Qed.
Let srt : sorted <%R (map fst kps). Proof. by case/and3P: gd. Qed.

Lemma uniform_sorted m : sorted <%R (map fst kps ++ uniform_knots m).
Proof.
have d0 : 0 < kk n.-1 - kk n.-2.
  by rewrite subr_gt0; apply: (kk_lt gd); move: k0 sz; clear; lia.
have e : path <%R (kk n.-1) (uniform_knots m).
  rewrite -[path _ _ _]/(sorted _ (kk n.-1 :: uniform_knots m)).
  have -> : kk n.-1 :: uniform_knots m = mkseq (fun i => kk n.-1 + (kk n.-1 - kk n.-2) *+ i) m.+1.
    by rewrite mkseqSl mulr0n addr0.
  by apply: sorted_mkseq => i _; rewrite mulrSr addrA ltr_addl.
have : kk n.-1 = last 0 (map fst kps).
  by rewrite -nth_last size_map (nth_map kp0) // ltn_predL; move: k0 sz; clear; lia.
move: srt e => s1 e lE; rewrite lE in e.
have sz0 : (0 < size (map fst kps))%N by rewrite size_map; move: k0 sz; clear; lia.
move: s1 e sz0; case: (map fst kps) => [//|x xs] /= s1 e _.
by rewrite cat_path s1.
Qed.

Lemma appendUniformE m value beyond :
  dm_appendSegmentsUniformly dbl mf (canon dbl k kps) m value beyond =
  dm_appendSegments dbl mf (canon dbl k kps) true (uniform_knots m) value.
Proof.
have n2 : (1 < n)%N by move: k0 sz; clear; lia.
rewrite /dm_appendSegmentsUniformly size_canon.
have m1 : getMovedIterator n n 0 (-1) = Ok n.-1.
  by rewrite (@getMoved_down n n 0 1) ?subn1 //; move: n2; clear; lia.
have m2 : getMovedIterator n n.-1 0 (-1) = Ok n.-2.
  by rewrite (@getMoved_down n n.-1 0 1) ?subn1 //; move: n2; clear; lia.
rewrite m1 /=; have -> : (n.-1 < n)%N by move: n2; clear; lia.
rewrite /= m2 /= !dg_drawE /= !canon_knot_at //; [|by move: n2; clear; lia..].
congr (dm_appendSegments _ _ _ _ _ _); rewrite /uniform_knots.
apply: eq_mkseq => i; rewrite /computeDuration /addScaledDuration mulrNz mulr1z.
by congr (_ + _); ring.
Qed.
End Uniform.

Section UniformMain.
Variables (F : realFieldType) (T : realDomainType) (dbl : T -> F) (mf : manifold F).
Hypothesis D0 : (0 < mf_size mf)%N.

Lemma main_append_uniform k kps (s : dspline F T) m value beyond : built dbl mf k kps s ->
  let n := size kps in
  let ts := mkseq (fun i => kp_knot kps n.-1 +
               (kp_knot kps n.-1 - kp_knot kps n.-2) *+ i.+1) m in
  let kps' := append_points mf k kps ts value in
  [/\ sorted <%R (map fst kps ++ ts),
      dm_appendSegmentsUniformly dbl mf s m value beyond = dm_appendSegments dbl mf s true ts value
    & exists2 s', dm_appendSegmentsUniformly dbl mf s m value beyond =
    MRet s' (kp_knot kps' (n + m - k)) & built dbl mf k kps' s'].
Proof.
move=> B n ts kps'; have [gd sE] := builtE D0 B.
have srt := uniform_sorted gd m.
split; [exact: srt|by rewrite sE (appendUniformE dbl mf gd)|].
have e := appendE dbl mf value gd srt.
rewrite sE (appendUniformE dbl mf gd) e size_mkseq.
eexists; first by reflexivity.
by apply: (built_append B srt (s' := canon dbl k kps')); rewrite sE; exact: e.
Qed.

Lemma main_knot_delta k (tMin beyond delta : T) m fuel sz c :
  (0 < k)%N -> 0 < delta -> (0 < m)%N -> tMin + delta *+ m.-1 < beyond ->
  beyond <= tMin + delta *+ m -> (m + 2 * k - 1 <= fuel)%N -> (0 < sz)%N -> mf_in mf c ->
  exists s kps g, [/\ dm_initConstantUniformSplineWithKnotDelta dbl mf (dm_new F T k) fuel
      tMin beyond delta sz c = Some (MRet s tt, g),
    built dbl mf k kps s /\ size kps = (m + 2 * k - 1)%N,
    forall j, (j < size kps)%N -> (nth kp0 kps j).2 = c,
    dm_getNumValidTimeSegments s = m
  & dm_getMinTime s = Ok tMin /\ dm_getMaxTime s = Ok (tMin + delta *+ m)].
Proof.
move=> k0 d0 m0 h1 h2 fu sz0 cin.
have [g' [ts [e1 _ [sts srt] _ [e3 e4]]]] := main_delta k0 d0 m0 h1 h2 fu.
have sk : (2 * k <= size ts)%N by rewrite sts; move: m0 k0; clear; lia.
have [s sE B] := initConstantE dbl k0 sz0 cin srt sk.
exists s, [seq (t, c) | t <- ts], g'; rewrite /dm_initConstantUniformSplineWithKnotDelta e1 sE.
have [_ _ _ _ [c1 _ c3 c4]] := main_built D0 B.
have sm : size [seq (t, c) | t <- ts] = size ts by rewrite size_map.
have kn j : (j < size ts)%N -> kp_knot [seq (t, c) | t <- ts] j = nth 0 ts j.
  by move=> h; rewrite /kp_knot (nth_map 0).
split=> //; first by rewrite sm.
- by move=> j; rewrite sm => h; rewrite (nth_map 0).
- by rewrite c1 sm sts; move: k0 m0; clear; lia.
- by rewrite c3 c4 !kn ?sm ?e3 ?e4 // sts; move: k0 m0; clear; lia.
Qed.
End UniformMain.

Section Free.
Variable T : realDomainType.
Implicit Types (g : free_gen T) (pre : seq T).

Lemma df_addE g t : sorted <%R (df_pre g) ->
  let: (g', b) := df_addPredefinedKnot g t in
  [/\ b = all (fun x => x < t) (df_pre g), sorted <%R (df_pre g'),
      df_pre g' = if b then rcons (df_pre g) t else df_pre g
    & [/\ df_order g' = df_order g, df_delta g' = df_delta g, df_last g' = df_last g
        & df_beyond g' = df_beyond g]].
Proof.
case: g => k d l b pre /=; rewrite /df_addPredefinedKnot /= => srt.
have key : ((size pre < 1)%N || (last 0 pre < t)) = all (fun x => x < t) pre.
  case: pre srt => [//|x xs] /= srt; apply/idP/idP => [lt|/andP[hx /allP h]].
    have : all (<=%R^~ (last x xs)) (x :: xs).
      apply/allP => y; rewrite inE => /orP[/eqP ->|yx].
        elim: xs x srt {lt y} => [|z zs IH] x //= /andP[xz p].
        exact: (le_trans (ltW xz) (IH _ p)).
      elim: xs x srt yx {lt} => [|z zs IH] x //= /andP[xz p].
      rewrite inE => /orP[/eqP ->|]; last exact: IH.
      elim: zs z p {IH xz x} => [|w ws IH] z //= /andP[zw p].
      exact: (le_trans (ltW zw) (IH _ p)).
    by case/andP => h1 /allP h2; rewrite (le_lt_trans h1 lt) /=; apply/allP => y /h2 /le_lt_trans; apply.
  by case: xs h {srt} => [//|y ys] h; apply: h; rewrite /= mem_last.
rewrite key; case: ifP => al /=; split=> //.
case: pre srt al {key} => [//|x xs] /= p /andP[hx /allP h].
rewrite rcons_path p /=; case: xs h {p} => [//|y ys] h; exact: (h _ (mem_last y ys)).
Qed.

Lemma df_nextE g : sorted <%R (df_pre g) -> 0 < df_delta g ->
  let: (g', t) := df_getNextKnot g in
  [/\ df_last g < t, df_last g' = t,
      (if has (fun x => df_last g < x) (df_pre g)
       then t \in df_pre g /\ forall x, x \in df_pre g -> df_last g < x -> t <= x
       else t = df_last g + df_delta g)
    & [/\ df_order g' = df_order g, df_delta g' = df_delta g, df_pre g' = df_pre g
        & df_beyond g' = df_beyond g]].
Proof.
case: g => k d l b pre /=; rewrite /df_getNextKnot /= => srt d0.
rewrite -has_find; case: ifP => h; last first.
  by split=> //; rewrite /addScaledDuration mulr1z // ltr_addl.
have lt := nth_find 0 h; split=> //; split; first by rewrite mem_nth // -has_find.
move=> x xin lx; have xi : (index x pre < size pre)%N by rewrite index_mem.
rewrite -(nth_index 0 xin); rewrite leNgt; apply/negP => hlt.
have : (index x pre < find (fun x => l < x)%R pre)%N.
  rewrite ltnNge; apply/negP => hle.
  have := sorted_leq_nth (@le_trans _ T) (@lexx _ T) 0 (sub_sorted (@ltW _ T) srt).
  move=> /(_ (find (fun x => l < x) pre) (index x pre)); rewrite !inE -has_find h xi => /(_ isT isT hle).
  by move=> /(lt_le_trans hlt); rewrite ltxx.
move=> /(before_find 0); rewrite nth_index // lx //.
Qed.

Lemma df_popE pre t : sorted <%R pre ->
  df_pop pre t = if has (fun x => t <= x) pre then Ok [seq x <- pre | (t <= x)%R] else UB.
Proof.
elim: pre => [//|x xs IH] /= p; rewrite leNgt; case: ltP => h /=.
  by rewrite IH //; exact: path_sorted p.
congr Ok; congr (_ :: _); symmetry; apply/all_filterP/allP => y yx.
by apply: (le_trans h); have /allP/(_ y yx)/ltW := order_path_min (@lt_trans _ T) p.
Qed.

Lemma df_extendE g t : sorted <%R (df_pre g) -> (0 < df_order g)%N -> (0 < size (df_pre g))%N ->
  let rest := [seq x <- df_pre g | (t <= x)%R] in
  df_extendBeyondTime g t =
  if (df_order g <= size rest)%N then
    MRet (FreeGen (df_order g) (df_delta g) (df_last g) (nth 0 rest (df_order g - 1)) rest) tt
  else if (0 < size rest)%N then
    MThrow (FreeGen (df_order g) (df_delta g) (df_last g) (df_beyond g) rest) ExnRuntime
  else MUB.
Proof.
case: g => k d l b pre /= srt k0 p0; rewrite /df_extendBeyondTime /df_getExtendedEndTime /=.
rewrite ltnNge p0 /= df_popE //.
have sf : (0 < size [seq x <- pre | (t <= x)%R])%N = has (fun x => t <= x) pre.
  by rewrite size_filter -has_count.
rewrite sf; case: ifP => h; last first.
  have -> : [seq x <- pre | (t <= x)%R] = [::] by apply: size0nil; apply/eqP; rewrite -leqn0 leqNgt sf h.
  by rewrite leqNgt k0.
have -> : (k - 1 < size [seq x <- pre | (t <= x)%R])%N = (k <= size [seq x <- pre | (t <= x)%R])%N.
  by move: k0; clear; lia.
by case: ifP.
Qed.

Lemma df_drainE j g fuel : sorted <%R (df_pre g) -> 0 < df_delta g ->
  (j < size (df_pre g))%N -> df_beyond g = nth 0 (df_pre g) j ->
  (size [seq x <- take j.+1 (df_pre g) | (df_last g < x)%R] <= fuel)%N ->
  exists g', df_drain fuel g = Some (g', [seq x <- take j.+1 (df_pre g) | (df_last g < x)%R]) /\
    ~~ df_hasNextKnot g' /\ df_pre g' = df_pre g.
Proof.
case: g => k d l b pre /= srt d0 jn bE.
have srl : sorted <=%R pre by apply: sub_sorted srt => x y /ltW.
elim: fuel l => [|f IH] l sf.
  have e : [seq x <- take j.+1 pre | (l < x)%R] = [::] by apply: size0nil; apply/eqP; rewrite -leqn0.
  have nh : l < b = false.
    apply/negbTE/negP => lb.
    have : b \in [seq x <- take j.+1 pre | (l < x)%R].
      rewrite mem_filter lb bE -(nth_take 0 (ltnSn j)); apply: mem_nth.
      by rewrite size_take; case: ifP => // /negbT; rewrite -leqNgt => h; move: jn h; clear; lia.
    by rewrite e.
  by rewrite /df_drain /df_hasNextKnot /= nh /= e; eexists; split=> //; rewrite /df_hasNextKnot /= nh.
have [lb|bl] := ltP l b; last first.
  have e : [seq x <- take j.+1 pre | (l < x)%R] = [::].
    apply/eqP; rewrite -[_ == _]negbK -has_filter; apply/negP => /hasP[x xin lx].
    have : x <= b.
      have xi := xin; rewrite -(nth_index 0 xi) bE.
      have q : (index x (take j.+1 pre) <= j)%N.
        by move: xin; rewrite -index_mem size_takel.
      rewrite nth_take // ; apply: (sorted_leq_nth (@le_trans _ T) (@lexx _ T) 0 srl) => //.
      by rewrite inE (leq_ltn_trans q jn).
    by move=> /(lt_le_trans lx) /lt_le_trans /(_ bl); rewrite ltxx.
  rewrite /= /df_hasNextKnot /= ltNge bl /= e; eexists; split; first by reflexivity.
  by rewrite /df_hasNextKnot /= ltNge bl.
(* the next predefined knot *)
have hasb : has (fun x => (l < x)%R) pre.
  by apply/hasP; exists b => //; rewrite bE mem_nth.
have fj : (find (fun x => l < x)%R pre <= j)%N.
  rewrite leqNgt; apply/negP => h; have := before_find 0 h.
  by rewrite -bE lb.
have lt := nth_find 0 hasb.
have bf y : (y < find (fun x => l < x)%R pre)%N -> (l < nth 0 pre y) = false.
  exact: before_find.
move: fj lt bf; move iE : (find _ pre) => i fj lt bf.
have split_pre : [seq x <- take j.+1 pre | (l < x)%R] =
    nth 0 pre i :: [seq x <- take j.+1 pre | (nth 0 pre i < x)%R].
  have e : take j.+1 pre = take i pre ++ nth 0 pre i :: take (j - i) (drop i.+1 pre).
    have ij : (j.+1 = i + (j - i).+1)%N by move: fj; clear; lia.
    rewrite ij -[in LHS](cat_take_drop i pre) take_cat size_takel; last first.
      by move: fj jn; clear; lia.
    have -> : (i + (j - i).+1 < i)%N = false by clear; lia.
    have ip : (i < size pre)%N by move: fj jn; clear; lia.
    by rewrite addKn [drop i pre](drop_nth 0 ip).
  rewrite e !filter_cat.
  have al y : y \in take i pre -> y <= l.
    move=> yin; have := yin; rewrite -index_mem size_takel; last exact: (ltnW (leq_ltn_trans fj jn)).
    move=> iy; have := bf _ iy.
    by rewrite -(nth_take 0 iy) nth_index // => /negbT; rewrite -leNgt.
  have f0 (z : T) : l <= z -> [seq x <- take i pre | (z < x)%R] = [::].
    move=> lz; apply/eqP; rewrite -[_ == _]negbK -has_filter; apply/negP => /hasP[y yin].
    by rewrite ltNge (le_trans (al y yin) lz).
  rewrite !f0 ?lexx ?(ltW lt) //= lt ltxx /=; congr (_ :: _).
  have p : path <%R (nth 0 pre i) (drop i.+1 pre).
    have : sorted <%R (drop i pre) by apply: drop_sorted.
    by rewrite (drop_nth 0 (leq_ltn_trans fj jn)).
  have /allP mn := order_path_min (@lt_trans _ T) p.
  have big y : y \in take (j - i) (drop i.+1 pre) -> nth 0 pre i < y by move=> /mem_take /mn.
  transitivity (take (j - i) (drop i.+1 pre)).
    by apply/all_filterP/allP => y /big; exact: lt_trans.
  by symmetry; apply/all_filterP/allP => y /big.
have [|g' [gE [nh pE]]] := IH (nth 0 pre i); first by move: sf; rewrite split_pre.
exists g'; rewrite /= /df_hasNextKnot /= lb /= /df_getNextKnot /= iE.
rewrite (leq_ltn_trans fj jn).
by rewrite gE split_pre.
Qed.

#[local] Arguments df_getNextKnot : simpl never.
Lemma free_run_inv (os : seq (fop T)) g g' ts : sorted <%R (df_pre g) -> 0 < df_delta g ->
  free_run g os = Some (g', ts) ->
  [/\ path <%R (df_last g) ts, sorted <%R (df_pre g'), df_last g' = last (df_last g) ts
    & df_order g' = df_order g /\ df_delta g' = df_delta g].
Proof.
elim: os g ts => [|o os IH] g ts srt d0; first by case=> <- <-.
case: o => [t||t].
- change (free_run g (FAdd t :: os)) with (free_run (df_addPredefinedKnot g t).1 os).
  have := df_addE t srt; case: (df_addPredefinedKnot g t) => g1 b [_ s1 _ [e1 e2 e3 _]] /= h.
  have d1 : 0 < df_delta g1 by rewrite e2.
  by have := IH _ _ s1 d1 h; rewrite e1 e2 e3.
- change (free_run g (FNext :: os)) with (let: (g1, t) := df_getNextKnot g in
    if free_run g1 os is Some (g2, ts) then Some (g2, t :: ts) else None).
  have [] := df_nextE srt d0; rewrite /df_getNextKnot.
  set t := (if _ then _ else _); set g1 := FreeGen _ _ _ _ _ => lt e _ [e1 e2 e3 _].
  have s1 : sorted <%R (df_pre g1) by rewrite e3.
  have d1 : 0 < df_delta g1 by rewrite e2.
  case h : (free_run g1 os) => [[g2 us]|] // [e' <-]; rewrite e' in h.
  by have [p sp le [oe de]] := IH _ _ s1 d1 h; rewrite /= lt -e p le oe de e1 e2; split.
- rewrite [free_run _ _]/= /df_extendBeyondTime /df_getExtendedEndTime.
  case: ifP => [_ /IH|_]; first by apply.
  rewrite df_popE //; case: ifP => // _; case: ifP => _ /IH; apply=> //=.
  + exact: (sorted_filter (@lt_trans _ T)).
  + exact: (sorted_filter (@lt_trans _ T)).
Qed.
End Free.

Section FreeMain.
Variable T : realDomainType.

Lemma main_free_history (k : nat) (start beyond delta : T) b (os : seq (fop T)) g ts :
  0 < delta -> free_run (df_new k start beyond delta b) os = Some (g, ts) ->
  [/\ sorted <%R ts, sorted <%R (df_pre g)
    & forall t, t \in ts -> (if b then start - delta else start - delta *+ k) < t].
Proof.
move=> d0 h; have [||p sp _ _] := free_run_inv _ _ h; [by []|exact: d0|].
split=> //; first exact: path_sorted p.
move=> t /(allP (order_path_min (@lt_trans _ T) p)).
rewrite /df_new /addScaledDuration /=; case: (b).
  by rewrite mulrN1z.
by rewrite subrK mulrNz pmulrn.
Qed.

(* the knots delivered after extendBeyondTime t *)
Lemma main_free_extend (g : free_gen T) (t : T) fuel : sorted <%R (df_pre g) -> 0 < df_delta g ->
  (0 < df_order g)%N -> (df_order g <= size [seq x <- df_pre g | (t <= x)%R])%N ->
  (df_order g <= fuel)%N ->
  let rest := [seq x <- df_pre g | (t <= x)%R] in
  exists g1 g2 ts, [/\ df_extendBeyondTime g t = MRet g1 tt,
    df_drain fuel g1 = Some (g2, ts), ~~ df_hasNextKnot g2,
    df_pre g2 = rest
  & ts = [seq x <- take (df_order g) rest | (df_last g < x)%R]].
Proof.
move=> srt d0 k0 h hf rest.
have pos : (0 < size (df_pre g))%N.
  have := leq_trans k0 h; rewrite size_filter -has_count => /hasP[x xin _].
  by case: (df_pre g) xin.
have := df_extendE t srt k0 pos; rewrite -/rest [X in X -> _]/= h => e.
set g1 := FreeGen _ _ _ _ _ in e.
have sr : sorted <%R (df_pre g1) by exact: (sorted_filter (@lt_trans _ T)).
have kr : ((df_order g - 1).+1 = df_order g)%N by rewrite subn1 prednK.
have [||g2 [h1 [h2 h3]]] := @df_drainE T (df_order g - 1) g1 fuel sr d0 _ (erefl _).
- by rewrite kr.
- rewrite kr; apply: leq_trans hf; rewrite size_filter; apply: leq_trans (count_size _ _) _.
  by rewrite size_take; case: ifP => // /negbT; rewrite -leqNgt.
by exists g1, g2; eexists; split; [exact: e|exact: h1|exact: h2|exact: h3|rewrite kr].
Qed.
End FreeMain.

(* ------------------------------------------------------------------ no predefined knots *)
Lemma free_is_delta (T : realDomainType) fuel (g : free_gen T) : df_pre g = [::] ->
  omap snd (df_drain fuel g)
  = omap snd (dg_drain fuel (DeltaGen (df_order g) (df_delta g) (df_last g) (df_beyond g))).
Proof.
elim: fuel g => [|m IH] [k d l b pre] /= ->; rewrite /df_hasNextKnot /dg_hasNextKnot /=; case: ifP => // _.
have := IH (FreeGen k d (addScaledDuration l d 1) b [::]) (erefl _).
rewrite /df_getNextKnot /=.
by case: (df_drain m _) => [[g2 ts]|]; case: (dg_drain m _) => [[g3 us]|] //= [->].
Qed.

Lemma main_free_plain (T : realDomainType) k (start beyond delta : T) m fuel : (0 < k)%N ->
  0 < delta -> (0 < m)%N -> start + delta *+ m.-1 < beyond -> beyond <= start + delta *+ m ->
  (m + 2 * k - 1 <= fuel)%N ->
  exists g' ts, [/\ df_drain fuel (df_new k start beyond delta false) = Some (g', ts),
    size ts = (m + 2 * k - 1)%N /\ sorted <%R ts,
    forall i, (i.+1 < size ts)%N -> nth 0 ts i.+1 - nth 0 ts i = delta
  & nth 0 ts (k - 1) = start /\ nth 0 ts (size ts - k) = start + delta *+ m].
Proof.
move=> k0 d0 m0 h1 h2 fu.
have [g' [ts [e _ szs st en]]] := main_delta k0 d0 m0 h1 h2 fu.
have := free_is_delta fuel (g := df_new k start beyond delta false) (erefl _).
rewrite (_ : DeltaGen _ _ _ _ = dg_new k start beyond delta false) ?e; last first.
  rewrite /dg_new /ka_getNumRequiredPreambleKnots /=; congr (DeltaGen _ _ (addScaledDuration _ _ _) _).
  by move: k0; clear; lia.
by case: (df_drain _ _) => [[g2 us]|] //= [->]; exists g2, ts.
Qed.
