(* calcFittedControlVertices, fitSpline and initSpline: the result has least cost. *)
From mathcomp Require Import all_ssreflect all_algebra.
From mathcomp.algebra_tactics Require Import ring.
From mathcomp.zify Require Import zify.
From Verif Require Import Prelude CoxDeBoor CoxDeBoorProofs BSplineModel BSplineSpec
  BSplineProofs BSplineEvalProofs BSplineIntegralProofs BSplineQuadProofs LinSolve
  DMModel DMSpec DMProofs DMEvalProofs DMAccessProofs KnotModel FitterModel FitterSpec FitterAlg
  FitterQuadProofs FitterSysProofs FitterRowProofs FitterMainProofs OptTimeProofs DMAppendProofs.
Set Implicit Arguments.
Unset Strict Implicit.
Unset Printing Implicit Defensive.
Import GRing.Theory Num.Theory Order.Theory.
Local Open Scope ring_scope.
#[local] Arguments fsum : simpl never.

Section Calc.
Variables (F : realFieldType) (T : realDomainType).
Variables (dbl : T -> F) (one : T).
Hypothesis et : exact_time dbl one.
Variables (k D : nat) (kps : seq (T * vec F)).
Hypothesis gd : good k kps.
Hypothesis D0 : (0 < D)%N.
Notation n := (size kps).
Notation cs := (canon dbl k kps).
Notation kk := (kp_knot kps).
Let k0 : (0 < k)%N. Proof. by case/and3P: gd. Qed.
Let sz : (2 * k <= n)%N. Proof. by case/and3P: gd. Qed.
Variable solve : nat -> mat F -> vec F -> vec F.
Hypothesis es : exact_solver solve.

(* the call up to the linear system *)
Lemma calc_reduce dense nc np rs times pts wf w lambda fixN (offsets : bool) i0 il :
  (np <= k.+1)%N -> (offsets -> lambda = 0) ->
  batch_ok k kps times pts -> numbers_knots kps (head 0 times) (last 0 times) rs ->
  weights_are (size pts) wf w ->
  is_segment k kps (head 0 times) i0 -> is_segment k kps (last 0 times) il ->
  exists sg : nat -> nat, [/\
    forall i, (i < size pts)%N -> is_segment k kps (nth 0 times i) (sg i), (i0 <= il)%N &
    let f := (i0.+1 - k + fixN)%N in let N := (il.+1 - f)%N in let q := (size pts * D)%N in
    let calc := ft_calcFittedControlVertices dbl one solve dense nc np (euclidean F D) cs rs
       times pts wf lambda fixN offsets in
    if (f <= il)%N then
      exists Ab, calc = mread cs (ft_motion dbl one dense cs D lambda fixN (head 0 times)
           (last 0 times) N (mulm q (trm Ab.1) Ab.1) (mulv q (trm Ab.1) Ab.2))
         (fun Ab2 => let c := solve (N * D) Ab2.1 Ab2.2 in
            if offsets then
              dm_manipulateControlVertices cs (fun i v => Ok (mf_project (euclidean F D)
                (fun r => v r + c (i * D + r)%N))) N (head 0 times) fixN%:Z
            else dm_setControlVerticesAt (euclidean F D) cs (DMat (N * D) 1 (fun r _ => c r))
                   (head 0 times) fixN%:Z)
      /\ forall i r (cc : vec F), (i < size pts)%N -> (r < D)%N ->
        mulv (N * D) Ab.1 cc (i * D + r)%N - Ab.2 (i * D + r)%N
        = resid dbl one k kps times pts w sg
            (fun v r => base_field k kps i0 il fixN offsets v r + ext D f N cc v r) i r
    else calc = MRet cs tt].
Proof.
move=> npk loff [stp p0 tmin tmax tin] /(resolve_seg gd)[z0 rsE] wfE sg0 sgl.
have hl : head 0 times <= last 0 times.
  have : head 0 times \in times by case: times stp p0 {tmin tmax tin rsE sg0 sgl} => [<- //|t l _ _]; rewrite mem_head.
  by move/tin => /andP[].
have i0l : (i0 <= il)%N := segment_mono gd sg0 sgl hl.
have tin' i : (i < size pts)%N -> head 0 times <= nth 0 times i /\ nth 0 times i <= last 0 times.
  by rewrite -stp => ip; apply/andP; apply: tin; apply: mem_nth.
have [sg sgE] : exists sg : nat -> nat, forall i, (i < size pts)%N -> is_segment k kps (nth 0 times i) (sg i).
  have ch m : exists sg : nat -> nat, forall i, (i < m)%N -> (i < size pts)%N -> is_segment k kps (nth 0 times i) (sg i).
    elim: m => [|m [sg H]]; first by exists id.
    case h: (m < size pts)%N; last first.
      by exists sg => i im ip; apply: H => //; move: im ip h; clear; lia.
    have [h1 h2] := tin' m h.
    have [s sgm] := segment_ex gd (le_trans tmin h1) (le_trans h2 tmax).
    exists (fun i => if i == m then s else sg i) => i im ip; case: eqP => [-> //|ne].
    by apply: H => //; move: im ne; clear; lia.
  by have [sg H] := ch (size pts); exists sg => i ip; apply: H.
have sgr i : (i < size pts)%N -> (i0 <= sg i <= il)%N.
  move=> ip; have [h1 h2] := tin' i ip.
  by rewrite (segment_mono gd sg0 (sgE i ip) h1) (segment_mono gd (sgE i ip) sgl h2).
have [ki rs0 ki0] := rsE _ _ (lexx _) hl sg0.
have [kl rsl kl0] := rsE _ _ hl (lexx _) sgl.
have [a1 a2 _ _] := sg0; have [b1 b2 _ _] := sgl.
exists sg; split=> // f N q calc; rewrite /calc.
rewrite /ft_calcFittedControlVertices.
have -> : offsets ==> (lambda == 0) by apply/implyP => /loff ->.
rewrite [massert _ _ _ _]/= (maxTimeE dbl gd) mreadOk stp p0 mreadOk rs0 mreadOk rsl mreadOk.
set tf := kl - _ + 1 - _.
have tfE : tf = il.+1%:Z - (i0.+1 - k + fixN)%N%:Z.
  by rewrite /tf; move: ki0 kl0 a1; clear; move: (if _ then _ else _) (if _ then _ else _) => x y; lia.
rewrite tfE; case: leqP => fil; last by rewrite ifT //; move: fil; rewrite /f; clear; lia.
rewrite ifF; last by move: fil; rewrite /f; clear; lia.
have -> : absz (il.+1%:Z - (i0.+1 - k + fixN)%N%:Z) = N.
  by move: fil; rewrite /N /f; clear; lia.
have cle : (i0.+1 - k + (if offsets then fixN + N else fixN) <= n)%N.
  by rewrite /N; move: fil b2; rewrite /f; clear; case: offsets; lia.
have [cur -> [szc curE]] := captureE dbl gd sg0 cle; rewrite mreadOk.
have -> : ki - ((ds_order cs)%:Z - 1) - (if head 0 times == kk (n - k) then 1 else 0) + fixN%:Z
  = z0 + i0%:Z - (k%:Z - 1) + fixN%:Z.
  by rewrite [ds_order _]/=; move: ki0; clear; move: (if _ then _ else _) => x; lia.
have curE' v : (v < size cur)%N -> nth zerov cur v = (nth kp0 kps (i0.+1 - k + v)).2.
  by rewrite szc; apply: curE.
have [Ab rowE HA] := rowsE et gd D0 sg0 sgl fil rsE nc npk wfE stp tin' sgE sgr szc curE'.
rewrite rowE mreadOk.
by exists Ab.
Qed.

Lemma calcE dense nc np rs times pts wf w lambda fixN (offsets : bool) i0 il :
  (np <= k.+1)%N -> 0 <= lambda -> lambda = 0 \/ fixN = 0%N -> (offsets -> lambda = 0) ->
  batch_ok k kps times pts -> numbers_knots kps (head 0 times) (last 0 times) rs ->
  weights_are (size pts) wf w ->
  is_segment k kps (head 0 times) i0 -> is_segment k kps (last 0 times) il ->
  exists2 kps',
    ft_calcFittedControlVertices dbl one solve dense nc np (euclidean F D) cs rs times pts wf
      lambda fixN offsets = MRet (canon dbl k kps') tt &
    best_fit dbl one k D kps kps' (i0.+1 - k + fixN) il.+1 times pts w lambda.
Proof.
move=> npk l0 lfix loff bo nk wfE sg0 sgl.
have [sg [sgE i0l]] := calc_reduce dense nc fixN npk loff bo nk wfE sg0 sgl.
cbv zeta; case: leqP => [fil [Ab [-> HA]]|h ->].
  have [Ab2 -> [kps' wr bf]] := optimal_best et gd D0 sgE es sg0 sgl i0l l0 lfix loff fil dense HA.
  by rewrite mreadOk; exists kps'.
exists kps => //; have ne v : ~~ ((i0.+1 - k + fixN <= v) && (v < il.+1))%N by move: h; clear; lia.
split; first by [].
exists (cost_val dbl one k D kps times pts w sg lambda (fun v r => (nth kp0 kps v).2 r)).
  exact: (cost_ex et D gd w sgE (erefl _)).
move=> kps2 E2 [key cmp] /(cost_valE et gd sgE key) ->.
rewrite (@eq_cost_val _ _ dbl one k D kps gd D0 times pts w sg sgE lambda
  (fun v r => (nth kp0 kps2 v).2 r) (fun v r => (nth kp0 kps v).2 r)) // => v r vn rD.
by rewrite cmp.
Qed.

(* whatever the linear system, a normal return changes at most the free vertices *)
Lemma calc_shape dense nc np rs times pts wf w lambda fixN (offsets : bool) i0 il :
  (np <= k.+1)%N -> (offsets -> lambda = 0) ->
  batch_ok k kps times pts -> numbers_knots kps (head 0 times) (last 0 times) rs ->
  weights_are (size pts) wf w ->
  is_segment k kps (head 0 times) i0 -> is_segment k kps (last 0 times) il ->
  forall s', ft_calcFittedControlVertices dbl one solve dense nc np (euclidean F D) cs rs times
    pts wf lambda fixN offsets = MRet s' tt ->
  exists2 kps', s' = canon dbl k kps' & competitor D kps kps' (i0.+1 - k + fixN) il.+1.
Proof.
move=> npk loff bo nk wfE sg0 sgl s'.
have [sg [sgE i0l]] := calc_reduce dense nc fixN npk loff bo nk wfE sg0 sgl.
cbv zeta; case: leqP => [fil [Ab [-> HA]]|h ->]; last by case=> <-; exists kps.
case: (ft_motion _ _ _ _ _ _ _ _ _ _ _ _) => // Ab2; rewrite mreadOk.
have [kps' [-> _ cmp _]] := write_solution dbl gd D0 offsets sg0 sgl fil
  (solve ((il.+1 - (i0.+1 - k + fixN)) * D) Ab2.1 Ab2.2).
by case=> <-; exists kps'.
Qed.

(* the map resolver over consecutive knots *)
Definition mlist (a c : nat) : seq (T * int) := mkseq (fun i => (kk (a + i), i%:Z)) c.

Lemma mr_insert_end (t : T) i m : all (fun x => x.1 < t) m -> mr_insert t i m = rcons m (t, i).
Proof. by elim: m => [//|x m IH] /= /andP[h1 h2]; rewrite (lt_gtF h1) h1 IH. Qed.

Lemma mlist_insert a c : (a + c < n)%N ->
  mr_insert (kk (a + c)) c%:Z (mlist a c) = mlist a c.+1.
Proof.
move=> h; rewrite mr_insert_end; first by rewrite /mlist mkseqS.
apply/allP => x /mapP[i]; rewrite mem_iota => /andP[_ ic] -> /=.
by apply: (kk_lt gd) => //; rewrite ltn_add2l.
Qed.

Lemma mlist_resolve a c t p : (a + c <= n)%N -> (a <= p)%N -> (p < a + c)%N ->
  kk p <= t -> ((p.+1 < a + c)%N -> t < kk p.+1) ->
  mr_getKnotIndexAtTime (mlist a c) t = Ok (p%:Z - a%:Z).
Proof.
move=> acn ap pac le lt; rewrite /mr_getKnotIndexAtTime.
have -> : find (fun x : T * int => t < x.1) (mlist a c) = (p - a).+1.
  have sm : size (mlist a c) = c by rewrite size_mkseq.
  have nt i : (i < c)%N -> nth (0, 0) (mlist a c) i = (kk (a + i), i%:Z) by move=> ic; rewrite nth_mkseq.
  apply/eqP; rewrite eqn_leq; apply/andP; split; last first.
    rewrite ltnNge; apply/negP => h.
    have hs : has (fun x : T * int => t < x.1) (mlist a c).
      by rewrite has_find sm; apply: leq_ltn_trans h _; move: ap pac; clear; lia.
    have := nth_find (0, 0) hs; rewrite nt /=; last by move: h ap pac; clear; lia.
    rewrite ltNge => /negP; apply; apply: le_trans le; apply: (kk_le gd).
      by move: h ap; clear; lia.
    by move: pac acn; clear; lia.
  have [h|h] := ltnP (p - a).+1 c.
    rewrite leqNgt; apply/negP => g; have := before_find (0, 0) g.
    rewrite nt // /= (_ : (a + (p - a).+1 = p.+1)%N); last by move: ap; clear; lia.
    by rewrite lt //; move: h ap; clear; lia.
  by apply: leq_trans (find_size _ _) _; rewrite sm.
rewrite /= nth_mkseq; last by move: ap pac; clear; lia.
by congr Ok => /=; move: ap; clear; lia.
Qed.

Lemma addKnot_same p : (p < n)%N -> dm_addKnot (euclidean F D) cs (kk p) = cs.
Proof.
move=> pn; rewrite /dm_addKnot.
suff -> : sm_insert (Seg (kk p) (mf_default (euclidean F D)) None) (ds_segs cs) = ds_segs cs by [].
have srt : sorted <%R (map (@sg_knot F T) (ds_segs cs)) by rewrite canon_keys; case/and3P: gd.
have mem : kk p \in map (@sg_knot F T) (ds_segs cs).
  by rewrite canon_keys /kp_knot -(nth_map kp0 0 fst) // mem_nth // size_map.
move: srt mem; elim: (ds_segs cs) => [//|y m IH] srt; rewrite in_cons => /orP[/eqP e|h] /=.
  by rewrite e ltxx.
have := order_path_min lt_trans srt => /allP /(_ _ h) ut.
by rewrite (lt_gtF ut) ut IH //; apply: path_sorted srt.
Qed.

Lemma collectE lt a p : (a <= p <= n)%N -> exists c',
  [/\ ft_collectKnots (euclidean F D) lt (n - p) p (p - a)%N%:Z cs (mlist a (p - a)) = (cs, mlist a c'),
     (p <= a + c' <= n)%N,
     forall q, (p <= q < a + c')%N -> kk q <= lt
   & (a + c' < n)%N -> lt < kk (a + c')].
Proof.
move e: (n - p)%N => c; elim: c p e => [|c IH] p e /andP[ap pn].
  exists (p - a)%N; split=> //; [by move: ap pn; clear; lia|by move=> q; move: ap; clear; lia|].
  by move: e ap; clear; lia.
rewrite /= (canon_knot_at dbl); last by move: e; clear; lia.
case: ltP => h.
  exists (p - a)%N; split=> //; [by move: ap pn; clear; lia|by move=> q; move: ap; clear; lia|].
  by move=> _; rewrite subnKC.
rewrite addKnot_same; last by move: e; clear; lia.
have -> : mr_insert (kk p) (p - a)%N%:Z (mlist a (p - a)) = mlist a (p.+1 - a).
  rewrite -{1}(subnKC ap) mlist_insert ?subnKC //; last by move: e; clear; lia.
  by rewrite subSn.
have -> : (p - a)%N%:Z + 1 = (p.+1 - a)%N%:Z by move: ap; clear; lia.
have e' : (n - p.+1 = c)%N by move: e; clear; lia.
have ap' : (a <= p.+1 <= n)%N by move: e ap; clear; lia.
have [c' [-> H1 H2 H3]] := IH p.+1 e' ap'.
exists c'; split=> //; first by move: H1; clear; lia.
move=> q /andP[q1 q2]; move: q1; rewrite leq_eqVlt => /orP[/eqP <- //|pq].
by apply: H2; rewrite pq.
Qed.

Lemma map_resolver_numbers a tl c' t0 : (a + c' <= n)%N -> (a < n)%N -> kk a <= t0 ->
  ((a + c' < n)%N -> tl < kk (a + c')) -> (0 < c')%N ->
  numbers_knots kps t0 tl (mr_getKnotIndexAtTime (mlist a c')).
Proof.
move=> acn an at0 end_ c0; exists (- a%:Z) => t p h1 h2 pn le lt.
have ap : (a <= p)%N.
  rewrite leqNgt; apply/negP => pa.
  have := lt _; have := kk_le gd pa an; move=> le1 /(_ _) lt1.
  have : t < kk p.+1 by apply: lt; move: pa an; clear; lia.
  by rewrite ltNge (le_trans le1 (le_trans at0 h1)).
rewrite (@mlist_resolve a c' t p) //.
- by congr Ok; move: ap; clear; lia.
- rewrite ltnNge; apply/negP => h.
  have h' : (a + c' < n)%N by move: h pn; clear; lia.
  have := kk_le gd h pn => le1; have := lt_le_trans (end_ h') (le_trans le1 (le_trans le h2)).
  by rewrite ltxx.
by move=> h; apply: lt; move: h acn; clear; lia.
Qed.

Lemma batch_segments times pts : batch_ok k kps times pts ->
  exists i0 il, is_segment k kps (head 0 times) i0 /\ is_segment k kps (last 0 times) il.
Proof.
move=> [stp p0 tmin tmax tin].
have hl : head 0 times <= last 0 times.
  have : head 0 times \in times by case: times stp p0 {tmin tmax tin} => [<- //|t l _ _]; rewrite mem_head.
  by move/tin => /andP[].
have [i0 s0] := segment_ex gd tmin (le_trans hl tmax).
have [il sl] := segment_ex gd (le_trans tmin hl) tmax.
by exists i0, il.
Qed.

Lemma checkBounds (times : seq T) : (0 < size times)%N ->
  reflect (forall t, t \in times -> head 0 times <= t <= last 0 times) (ft_checkTimesBounds times).
Proof.
move=> h; rewrite /ft_checkTimesBounds; case: ltnP => h1; first exact: allP.
apply: ReflectT => t; have -> : times = [:: head 0 times].
  by case: times h h1 => [//|x [|]].
by rewrite inE => /eqP ->; rewrite lexx.
Qed.

Lemma fitSpline_reduce dense nc np times pts wf lambda fixN (offsets : bool) :
  batch_ok k kps times pts ->
  exists2 rs, numbers_knots kps (head 0 times) (last 0 times) rs &
    ft_fitSpline dbl one solve dense nc np (euclidean F D) cs times pts lambda fixN wf offsets
    = ft_calcFittedControlVertices dbl one solve dense nc np (euclidean F D) cs rs times pts wf
      lambda fixN offsets.
Proof.
move=> bo; have [stp p0 tmin tmax tin] := bo; have [i0 [il [sg0 sgl]]] := batch_segments bo.
rewrite /ft_fitSpline; have -> : (1 <= size pts)%N by [].
rewrite stp eqxx; have -> : ft_checkTimesBounds times by apply/checkBounds; rewrite ?stp.
rewrite (minTimeE dbl gd) mreadOk tmin (maxTimeE dbl gd) mreadOk tmax.
rewrite (segIterE dbl gd sg0) mreadOk; have [a1 a2 a3 _] := sg0.
rewrite (firstRelevantE dbl gd); [|by move: a1 a2; clear; lia..].
rewrite mreadOk size_canon /massert.
set a := (i0.+1 - k)%N.
have an : (a <= a <= n)%N by rewrite /a; move: a1 a2; clear; lia.
have := collectE (last 0 times) an; rewrite subnn => [[c' [-> H1 H2 H3]]].
have kka : kk a <= head 0 times.
  by apply: le_trans a3; apply: (kk_le gd); rewrite /a; move: a1 a2 k0; clear; lia.
have hl : head 0 times <= last 0 times.
  have : head 0 times \in times by case: times stp p0 {bo tmin tmax tin sg0 sgl a3 H2 H3 kka} => [<- //|t l _ _]; rewrite mem_head.
  by move/tin => /andP[].
exists (mr_getKnotIndexAtTime (mlist a c')) => //; apply: map_resolver_numbers => //.
- by move: H1; clear; lia.
- by rewrite /a; move: a1 a2 k0; clear; lia.
case: c' {H2} H1 H3 => [|//] _; rewrite addn0 => /(_ _) h.
have : last 0 times < kk a by apply: h; rewrite /a; move: a1 a2 k0; clear; lia.
by rewrite ltNge (le_trans kka hl).
Qed.


Lemma fitSplineE dense nc np times pts wf w lambda fixN (offsets : bool) i0 il :
  (np <= k.+1)%N -> 0 <= lambda -> lambda = 0 \/ fixN = 0%N -> (offsets -> lambda = 0) ->
  batch_ok k kps times pts -> weights_are (size pts) wf w ->
  is_segment k kps (head 0 times) i0 -> is_segment k kps (last 0 times) il ->
  exists2 kps',
    ft_fitSpline dbl one solve dense nc np (euclidean F D) cs times pts lambda fixN wf offsets
      = MRet (canon dbl k kps') tt &
    best_fit dbl one k D kps kps' (i0.+1 - k + fixN) il.+1 times pts w lambda.
Proof.
move=> npk l0 lfix loff bo wfE sg0 sgl.
have [rs nk ->] := fitSpline_reduce dense nc np wf lambda fixN offsets bo.
exact: calcE.
Qed.

Lemma fitSpline_shape dense nc np times pts wf w lambda fixN (offsets : bool) i0 il :
  (np <= k.+1)%N -> (offsets -> lambda = 0) ->
  batch_ok k kps times pts -> weights_are (size pts) wf w ->
  is_segment k kps (head 0 times) i0 -> is_segment k kps (last 0 times) il ->
  forall s', ft_fitSpline dbl one solve dense nc np (euclidean F D) cs times pts lambda fixN wf
    offsets = MRet s' tt ->
  exists2 kps', s' = canon dbl k kps' & competitor D kps kps' (i0.+1 - k + fixN) il.+1.
Proof.
move=> npk loff bo wfE sg0 sgl s'.
have [rs nk ->] := fitSpline_reduce dense nc np wf lambda fixN offsets bo.
exact: (calc_shape npk loff bo nk wfE sg0 sgl).
Qed.

Lemma fitSpline_rejects dense nc np times pts wf lambda fixN (offsets : bool) :
  ~ batch_ok k kps times pts ->
  ft_fitSpline dbl one solve dense nc np (euclidean F D) cs times pts lambda fixN wf offsets
  = MThrow cs ExnSpline.
Proof.
move=> nb; rewrite /ft_fitSpline /massert /=; case: ifP => // p0; case: ifP => // /eqP stp.
case: ifP => // cb; rewrite (minTimeE dbl gd) mreadOk; case: ifP => // tmin.
rewrite (maxTimeE dbl gd) mreadOk; case: ifP => // tmax; case: nb; split=> //.
by apply/checkBounds; rewrite ?stp.
Qed.
End Calc.

Section Init.
Variables (F : realFieldType) (T : realDomainType).
Variables (dbl : T -> F) (one : T).
Hypothesis et : exact_time dbl one.
Variables (k D : nat) (ts : seq T).
Hypothesis k0 : (0 < k)%N.
Hypothesis D0 : (0 < D)%N.
Hypothesis srt : sorted <%R ts.
Hypothesis szt : (2 * k <= size ts)%N.
Variable solve : nat -> mat F -> vec F -> vec F.
Hypothesis es : exact_solver solve.
Definition zero_points : seq (T * vec F) := [seq (t, zerov) | t <- ts].

Lemma keys_zero : map fst zero_points = ts.
Proof. by rewrite -map_comp map_id. Qed.
Lemma good_zero : good k zero_points.
Proof. by rewrite /good k0 size_map szt /increasing keys_zero. Qed.

Lemma initSplineE dense nc np own times pts lambda i0 il :
  (np <= k.+1)%N -> 0 <= lambda -> (2 <= size pts)%N -> batch_ok k zero_points times pts ->
  (if own is Some rs then numbers_knots zero_points (head 0 times) (last 0 times) rs else True) ->
  is_segment k zero_points (head 0 times) i0 -> is_segment k zero_points (last 0 times) il ->
  exists2 kps',
    ft_initSpline dbl one solve dense nc np (euclidean F D) (dm_new F T k) ts own times pts lambda
      = MRet (canon dbl k kps') tt &
    best_fit dbl one k D zero_points kps' (i0.+1 - k) il.+1 times pts (fun _ => 1) lambda.
Proof.
move=> npk l0 p2 bo ow sg0 sgl; have [stp p0 tmin tmax tin] := bo.
rewrite /ft_initSpline /massert [ds_evaluable _]/= stp eqxx p2.
have -> : ft_checkTimesBounds times by apply/checkBounds; rewrite ?stp.
have -> : foldl (dm_addKnot (euclidean F D)) (dm_new F T k) ts = constructing k zero_points.
  rewrite /constructing /raw_segs.
  suff H (l : seq T) (m : seq (T * vec F)) : sorted <%R (map fst m ++ l) ->
     foldl (dm_addKnot (euclidean F D)) (DSpline k false [seq Seg tp.1 tp.2 None | tp <- m] Singular Singular Singular) l
     = DSpline k false [seq Seg tp.1 tp.2 None | tp <- m ++ [seq (t, zerov) | t <- l]] Singular Singular Singular.
    exact: (H ts [::] srt).
  elim: l m => [|t l IH] m; first by rewrite !cats0.
  move=> so; rewrite [foldl _ _ _]/= {2}/dm_addKnot /with_segs [ds_segs _]/= sm_insert_end; last first.
    rewrite -map_comp; move: so; rewrite (sorted_pairwise lt_trans) pairwise_cat allrel_consr.
    by case/andP=> /andP[].
  rewrite [ds_order _]/= [ds_evaluable _]/=.
  have := IH (rcons m (t, zerov)); rewrite map_rcons cat_rcons => /(_ so).
  by rewrite map_rcons cat_rcons.
have gz := good_zero.
rewrite (initE dbl gz) /mbind.
have szz : size zero_points = size ts by rewrite size_map.
rewrite -[(i0.+1 - k)%N]addn0.
apply: (calcE et gz D0 es) => //; first by right.
case: own ow => [rs //|_].
have kn i : (i < size ts)%N -> kp_knot zero_points i = nth 0 ts i.
  by move=> h; rewrite /kp_knot (nth_map 0).
have -> : foldl (fun m (ti : T * int) => mr_insert ti.1 ti.2 m) [::]
    (zip ts [seq Posz i | i <- iota 0 (size ts)]) = mlist zero_points 0 (size ts).
  have H c : (c <= size ts)%N -> foldl (fun m (ti : T * int) => mr_insert ti.1 ti.2 m) [::]
    (take c (zip ts [seq Posz i | i <- iota 0 (size ts)])) = mlist zero_points 0 c.
    elim: c => [|c IH] h; first by rewrite take0.
    rewrite (take_nth (0, 0)); last by rewrite size_zip size_map size_iota minnn.
    rewrite foldl_rcons IH ?(ltnW h) // nth_zip ?size_map ?size_iota //=.
    rewrite (nth_map 0%N) ?size_iota // nth_iota // -kn //.
    by rewrite -[c in kp_knot _ c]add0n (mlist_insert gz) // add0n szz.
  by have := H (size ts) (leqnn _); rewrite take_oversize // size_zip size_map size_iota minnn.
apply: (map_resolver_numbers gz) => //; rewrite ?szz ?add0n ?leqnn //.
- by move: szt k0; clear; lia.
- by apply: le_trans tmin; apply: (kk_le gz) => //; rewrite szz; move: szt k0; clear; lia.
- by rewrite ltnn.
by move: szt k0; clear; lia.
Qed.
End Init.
