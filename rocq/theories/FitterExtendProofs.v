(* extendAndFitSpline: the data of the final fit; the old part of the curve. *)
From mathcomp Require Import all_ssreflect all_algebra.
From mathcomp.algebra_tactics Require Import ring.
From mathcomp.zify Require Import zify.
From Verif Require Import Prelude CoxDeBoor CoxDeBoorProofs BSplineModel BSplineSpec
  BSplineProofs BSplineEvalProofs LinSolve DMModel DMSpec DMProofs DMEvalProofs DMAccessProofs
  DMAppendProofs DMCurveProofs DMMainProofs KnotModel FitterModel FitterSpec FitterCalcProofs.
Set Implicit Arguments.
Unset Strict Implicit.
Unset Printing Implicit Defensive.
Import GRing.Theory Num.Theory Order.Theory.
Local Open Scope ring_scope.

Section Extend.
Variables (F : realFieldType) (T : realDomainType).
Variables (dbl : T -> F) (one : T).
Variables (k : nat) (kps : seq (T * vec F)).
Hypothesis gd : good k kps.
Notation n := (size kps).
Notation cs := (canon dbl k kps).
Notation kk := (kp_knot kps).
Let k0 : (0 < k)%N. Proof. by case/and3P: gd. Qed.
Let sz : (2 * k <= n)%N. Proof. by case/and3P: gd. Qed.

Lemma kk_ltE i j : (i < n)%N -> (j < n)%N -> (kk i < kk j) = (i < j)%N.
Proof.
move=> iN jn; case: (ltnP i j) => h; first by apply: (kk_lt gd).
by apply/negbTE; rewrite -leNgt; apply: (kk_le gd).
Qed.
Lemma kk_leE i j : (i < n)%N -> (j < n)%N -> (kk i <= kk j) = (i <= j)%N.
Proof. by move=> iN jn; rewrite leNgt kk_ltE // -leqNgt. Qed.

Lemma relevant_loopE e c p : (p < n)%N -> (e < n)%N -> (c = n - p)%N ->
  ft_relevant_loop (ds_segs cs) (kk e) c p = Ok (iota p (e - p)).
Proof.
elim: c p => [|c IH] p pn en ce /=; first by move: ce pn; clear; lia.
rewrite canon_knot_at // kk_ltE //; case: ltnP => pe; last first.
  by have -> : (e - p = 0)%N by move: pe; clear; lia.
rewrite IH //; [|by move: pe en; clear; lia|by move: ce; clear; lia].
by have -> : (e - p = (e - p.+1).+1)%N by move: pe; clear; lia.
Qed.

Lemma relevantE t i0 e : is_segment k kps t i0 -> (e < n)%N ->
  ft_relevantControlVertices cs t (kk e) = Ok (iota (i0.+1 - k) (e - (i0.+1 - k))).
Proof.
move=> sg en; have [a1 a2 _ _] := sg.
rewrite /ft_relevantControlVertices (segIterE dbl gd sg) /= (firstRelevantE dbl gd) /=;
  [|by move: a1 a2; clear; lia..].
by rewrite size_mkseq relevant_loopE //; move: a1 a2 k0; clear; lia.
Qed.

(* the data of the final fit: the knots after the relevant ones, if not before the start of
   the valid interval *)
Lemma extendDataE (evalAt : dspline F T -> T -> outcome (vec F)) junk times pts bw i0 e :
  (forall t, kk (k - 1) <= t -> t <= kk (n - k) -> exists v, evalAt cs t = Ok v) ->
  is_segment k kps (head 0 times) i0 -> (k <= e <= n - k)%N ->
  let p0 := (i0.+1 - k)%N in let rel := (e - p0)%N in
  let ks := [seq kk p.+1 | p <- iota p0 rel & (k - 1 <= p.+1)%N] in
  exists vs, [/\ size vs = size ks,
    forall j, (j < size ks)%N -> evalAt cs (nth 0 ks j) = Ok (nth zerov vs j)
  & ft_extendData evalAt junk cs times pts (kk e) bw
    = Ok (ks ++ nseq (rel - size ks) 0 ++ times, vs ++ nseq (rel - size ks) junk ++ pts,
          nseq (size ks) bw, rel)].
Proof.
move=> ev sg /andP[ke en] p0 rel ks; rewrite /ft_extendData (minTimeE dbl gd).
have en' : (e < n)%N by move: en k0 sz; clear; lia.
rewrite [obind (Ok _) _]/= (relevantE sg en') -/p0 -/rel [obind (Ok _) _]/= size_iota.
set step := (X in foldl X _ _).
have st m : (m <= rel)%N -> exists vs,
  let ks := [seq kk p.+1 | p <- iota p0 m & (k - 1 <= p.+1)%N] in
  [/\ size vs = size ks, forall j, (j < size ks)%N -> evalAt cs (nth 0 ks j) = Ok (nth zerov vs j)
  & foldl step (Ok [::]) (iota p0 m) = Ok (zip ks vs)].
  elim: m => [|m IH] mr; first by exists [::].
  have [vs [h1 h2 h3]] := IH (ltnW mr).
  rewrite -[m.+1]addn1 iotaD foldl_cat h3 filter_cat map_cat /= /step /=.
  have pm : (p0 + m < e)%N by rewrite /rel in mr; move: mr; clear; lia.
  rewrite (size_canon dbl k kps); have -> /= : ((p0 + m).+1 < n)%N by move: pm en k0 sz; clear; lia.
  rewrite (canon_knot_at dbl); last by move: pm en'; clear; lia.
  rewrite kk_leE; [|by move: k0 sz; clear; lia|by move: pm en'; clear; lia].
  case: ifP => km /=; last by exists vs; rewrite cats0.
  have [||v hv] := ev (kk (p0 + m).+1).
  + by rewrite kk_leE //; move: k0 sz pm en'; clear; lia.
  + by rewrite kk_leE //; move: k0 sz pm en' en; clear; lia.
  rewrite hv /=; exists (rcons vs v); rewrite size_rcons size_cat addn1 h1; split=> //.
    move=> j; rewrite ltnS leq_eqVlt => /orP[/eqP ->|jl].
      by rewrite nth_cat ltnn subnn /= hv nth_rcons h1 ltnn eqxx.
    by rewrite nth_cat jl h2 // nth_rcons h1 jl.
  by rewrite cats1 zip_rcons.
have [vs [h1 h2 ->]] := st rel (leqnn _); exists vs; rewrite -/ks in h1 h2 *; split=> //=.
have skr : (size ks <= rel)%N.
  by rewrite size_map size_filter; apply: leq_trans (count_size _ _) _; rewrite size_iota.
have nc A (x : A) (l : seq A) m : (size l <= rel)%N ->
  take rel (take (m + rel) l ++ nseq (m + rel - size l) x) = l ++ nseq (rel - size l) x.
  move=> h; rewrite (@take_oversize _ (m + rel)); last by move: h; clear; lia.
  rewrite take_cat ltnNge h /= take_nseq //; move: h; clear; lia.
rewrite -/(unzip1 _) -/(unzip2 _) unzip1_zip ?h1 // unzip2_zip ?h1 // nc //.
have := nc _ junk vs (size pts); rewrite h1 => -> //; rewrite -!catA.
congr (Ok (_, _, _, _)).
apply: (@eq_from_nth _ 0); rewrite size_map size_zip h1 minnn ?size_nseq // => j jl.
by rewrite (nth_map (0, zerov)) ?nth_nseq ?jl // size_zip h1 minnn.
Qed.

Lemma count_relevant p0 m : count (fun p => (k - 1 <= p.+1)%N) (iota p0 m) =
  (p0 + m - maxn p0 (k - 2))%N.
Proof.
elim: m p0 => [|m IH] p0 /=; first by lia.
by rewrite IH; case: leqP => /=; lia.
Qed.

Lemma size_pushed i0 e : (k <= i0.+1)%N -> (k <= e)%N ->
  let p0 := (i0.+1 - k)%N in let rel := (e - p0)%N in
  let ks := [seq kk p.+1 | p <- iota p0 rel & (k - 1 <= p.+1)%N] in
  (size ks <= rel)%N /\ (size ks = rel <-> (2 * k <= i0 + 3)%N).
Proof.
move=> ki ke; cbv zeta; rewrite size_map size_filter count_relevant.
by move: k0 ki ke; clear; split; [lia|split; lia].
Qed.

(* without a missing knot *)
Lemma pushed_all i0 e : (k <= i0.+1)%N -> (2 * k <= i0 + 3)%N ->
  let p0 := (i0.+1 - k)%N in let rel := (e - p0)%N in
  [seq kk p.+1 | p <- iota p0 rel & (k - 1 <= p.+1)%N] = [seq kk p.+1 | p <- iota p0 rel].
Proof.
move=> ki h; cbv zeta; congr map; apply/all_filterP/allP => p; rewrite mem_iota.
by move: ki h; clear; lia.
Qed.

Variable D : nat.
Hypothesis D0 : (0 < D)%N.
Hypothesis et : exact_time dbl one.
Variable solve : nat -> mat F -> vec F -> vec F.
Hypothesis es : exact_solver solve.
Variable evalAt : dspline F T -> T -> outcome (vec F).

Section Fit.
Hypothesis ev : forall t, kk (k - 1) <= t -> t <= kk (n - k) -> exists v, evalAt cs t = Ok v.
Variables (times : seq T) (pts : seq (vec F)) (junk : vec F) (bw : F) (e i0 : nat).
Hypothesis sg0 : is_segment k kps (head 0 times) i0.
Hypothesis he : (k <= e <= n - k)%N.
Notation p0 := (i0.+1 - k)%N.
Notation rel := (e - p0)%N.
Let i1 : (k <= i0.+1)%N. Proof. by case: sg0. Qed.

(* a batch that ends before the old end is rejected *)
Lemma extend_rejects dense nc np lambda fixN offsets :
  (0 < size times)%N -> (forall t, t \in times -> head 0 times <= t <= last 0 times) ->
  last 0 times < kk e ->
  mread cs (ft_extendData evalAt junk cs times pts (kk e) bw) (fun data =>
    let: (newTimes, newPoints, weights, rel) := data in
    ft_fitSpline dbl one solve dense nc np (euclidean F D) cs newTimes newPoints lambda fixN
      (Some (ft_weight weights rel)) offsets) = MThrow cs ExnSpline.
Proof.
move=> tn bnd lt; have [vs [h1 h2 ->]] := extendDataE junk pts bw ev sg0 he.
rewrite mreadOk; apply: fitSpline_rejects => // -[_ _ _ _].
have /andP[he1 he2] := he.
have le : head 0 times <= last 0 times.
  by case: times tn bnd => // x l _ /(_ x (mem_head _ _)) /andP[].
have ie : (i0 < e)%N.
  have [a1 a2 a3 _] := sg0; rewrite -kk_ltE //; try (move: a2 he1 he2 k0 sz; clear; lia).
  exact: le_lt_trans a3 (le_lt_trans le lt).
have re : rel = (rel.-1 + 1)%N by move: ie i1 k0; clear; lia.
have mem : kk e \in [seq kk p.+1 | p <- iota p0 rel & (k - 1 <= p.+1)%N].
  apply/mapP; exists e.-1; last by congr kp_knot; move: he1 k0; clear; lia.
  by rewrite mem_filter mem_iota; move: ie i1 he1 k0; clear; lia.
move=> /(_ (kk e)); rewrite mem_cat mem => /(_ isT) /andP[_].
by rewrite !last_cat; case: times tn lt => // x l _ /=; rewrite leNgt => ->.
Qed.

(* otherwise the result is the best fit to the old values at the knots and the new data *)
Lemma extend_fits dense nc np lambda (offsets : bool) il : (1 < k)%N -> (2 * k <= i0 + 3)%N ->
  (np <= k.+1)%N -> 0 <= lambda -> (offsets -> lambda = 0) ->
  batch_ok k kps times pts -> kk e <= last 0 times -> is_segment k kps (last 0 times) il ->
  let ks := [seq kk p.+1 | p <- iota p0 rel] in
  exists vs i0' kps', [/\ size vs = rel,
    forall j, (j < rel)%N -> evalAt cs (nth 0 ks j) = Ok (nth zerov vs j),
    is_segment k kps (head 0 (ks ++ times)) i0',
    mread cs (ft_extendData evalAt junk cs times pts (kk e) bw) (fun data =>
      let: (newTimes, newPoints, weights, rel) := data in
      ft_fitSpline dbl one solve dense nc np (euclidean F D) cs newTimes newPoints lambda 0
        (Some (ft_weight weights rel)) offsets) = MRet (canon dbl k kps') tt
  & best_fit dbl one k D kps kps' (i0'.+1 - k) il.+1 (ks ++ times) (vs ++ pts)
      (fun j => if (j < rel)%N then bw else 1) lambda].
Proof.
move=> k1 hk npk l0 ol bk lt sgl ks; have [vs] := extendDataE junk pts bw ev sg0 he.
cbv zeta; rewrite pushed_all // -/ks => -[h1 h2 ->]; rewrite mreadOk.
have sk : size ks = rel by rewrite size_map size_iota.
rewrite sk in h1 h2 *; rewrite subnn !cat0s.
have [b1 b2 b3 b4 b5] := bk; have /andP[he1 he2] := he.
have [a1 a2 a3 _] := sg0.
have ksb t : t \in ks -> kk p0.+1 <= t <= kk e.
  move=> /mapP[p]; rewrite mem_iota => /andP[q1 q2] ->.
  by rewrite !kk_leE; move: q1 q2 he2 k0 sz i1 a2; clear; try lia.
have hd : head 0 (ks ++ times) = if (0 < rel)%N then kk p0.+1 else head 0 times.
  by rewrite /ks; case: (rel).
have la : last 0 (ks ++ times) = last 0 times.
  by rewrite last_cat; case: times b1 b2 => //= b1 b2; rewrite -b1 in b2.
have hle : head 0 (ks ++ times) <= head 0 times.
  rewrite hd; case: ifP => // _; apply: le_trans a3; rewrite kk_leE //; move: a2 k1 i1 k0; clear; lia.
have bk' : batch_ok k kps (ks ++ times) (vs ++ pts).
  split.
  - by rewrite !size_cat sk h1 b1.
  - by rewrite size_cat; move: b2; clear; lia.
  - rewrite hd; case: ifP => // r0; rewrite kk_leE; move: hk i1 he2 k0 sz r0; clear; lia.
  - by rewrite la.
  - move=> t; rewrite mem_cat la => /orP[kt|tt].
      have /andP[q1 q2] := ksb _ kt; rewrite (le_trans q2 lt) andbT hd.
      by case: ifP => // /negbT r0; move: kt sk; rewrite -leqNgt leqn0 in r0 *; rewrite (eqP r0); case: (ks).
    by have /andP[q1 q2] := b5 _ tt; rewrite q2 andbT (le_trans hle).
have [i0' [il' [s1 s2]]] := batch_segments gd bk'.
have ile : il' = il by apply: (segment_unique gd s2); rewrite la.
rewrite ile in s2.
have wa : weights_are (size (vs ++ pts)) (Some (ft_weight (nseq rel bw) rel))
    (fun j => if (j < rel)%N then bw else 1).
  move=> j _ /=; rewrite /ft_weight; case: ifP => // jr.
  by rewrite size_nseq jr nth_nseq jr.
have [kps' e1 e2] := fitSplineE et gd D0 es dense nc npk l0 (or_intror (erefl 0%N)) ol bk' wa s1 s2.
by exists vs, i0', kps'; rewrite addn0 in e2; split.
Qed.
End Fit.
End Extend.
