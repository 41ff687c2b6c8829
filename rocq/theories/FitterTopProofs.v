(* extendAndFitSpline as a whole, for Euclidean splines. *)
From mathcomp Require Import all_ssreflect all_algebra.
From mathcomp.algebra_tactics Require Import ring.
From mathcomp.zify Require Import zify.
From Verif Require Import Prelude CoxDeBoor CoxDeBoorProofs BSplineModel BSplineSpec
  BSplineProofs BSplineEvalProofs LinSolve DMModel DMSpec DMProofs DMEvalProofs DMAccessProofs
  DMAppendProofs DMCurveProofs DMMainProofs KnotModel FitterModel FitterSpec FitterCalcProofs
  FitterExtendProofs.
Set Implicit Arguments.
Unset Strict Implicit.
Unset Printing Implicit Defensive.
Import GRing.Theory Num.Theory Order.Theory.
Local Open Scope ring_scope.
#[local] Arguments fsum : simpl never.

Section Top.
Variables (F : realFieldType) (T : realDomainType).
Variables (dbl : T -> F) (one : T).
Hypothesis et : exact_time dbl one.
Variable D : nat.
Hypothesis D0 : (0 < D)%N.
Variable solve : nat -> mat F -> vec F -> vec F.
Hypothesis es : exact_solver solve.
Notation mf := (euclidean F D).

Lemma evalAtE k kps np t i : good k kps -> is_segment k kps t i -> (np <= k.+1)%N ->
  exists2 v, ft_evalAt dbl one np (canon dbl k kps) t = Ok v &
    forall r, v r = (dm_piece dbl one k kps r i).[sec dbl one t].
Proof.
move=> gd sg npk; rewrite /ft_evalAt (evaluatorE dbl gd sg).
have [|v hv Hv] := @eu_evalDE _ _ dbl one et k kps gd t i 0 (Some 0%N) np sg npk; first by [].
by exists v => [|r]; [exact: hv|rewrite Hv derivn0].
Qed.

Section Fixed.
Variables (k : nat) (kps : seq (T * vec F)).
Hypothesis gd : good k kps.
Notation n := (size kps).
Notation cs := (canon dbl k kps).
Notation kk := (kp_knot kps).
Let k0 : (0 < k)%N. Proof. by case/and3P: gd. Qed.
Let sz : (2 * k <= n)%N. Proof. by case/and3P: gd. Qed.
Variables (gen : T -> seq T) (times : seq T) (pts : seq (vec F)).
Hypothesis srt : sorted <%R (map fst kps ++ gen (last 0 times)).

Notation extended := (FitterSpec.extended D k kps gen times).

Lemma good_extended : good k extended.
Proof. by rewrite /extended; case: ifP => // _; apply: good_append. Qed.
Lemma extended_prefix : [/\ (n <= size extended)%N,
  forall j, (j < n)%N -> kp_knot extended j = kk j
  & forall j, (j < n - k)%N -> (nth kp0 extended j).2 = (nth kp0 kps j).2].
Proof. by rewrite /extended; case: ifP => // _; apply: append_prefix. Qed.
Lemma extended_max : kp_knot extended (n - k) = kk (n - k).
Proof. by have [_ -> //] := extended_prefix; move: k0 sz; clear; lia. Qed.

Lemma extendE evalAt junk dense nc np lambda honor offsets :
  (0 < size pts)%N -> size times = size pts -> (honor <= 100)%N ->
  ft_extendAndFitSpline dbl one solve evalAt junk dense nc np mf cs true gen times pts lambda honor
    offsets =
  let s1 := canon dbl k extended in
  if (honor == 0)%N || (honor == 100)%N then
    if honor != 0%N then
      if kk (n - k) < last 0 times then
        mread s1 (ft_relevantControlVertices s1 (head 0 times) (kp_knot extended (n - k))) (fun ps =>
        ft_fitSpline dbl one solve dense nc np mf s1 times pts lambda (size ps) None offsets)
      else MRet s1 tt
    else ft_fitSpline dbl one solve dense nc np mf s1 times pts lambda 0 None offsets
  else
    mread s1 (ft_extendData evalAt junk s1 times pts (kp_knot extended (n - k))
                (honor%:R / (100 - honor)%:R)) (fun data =>
    let: (newTimes, newPoints, weights, rel) := data in
    ft_fitSpline dbl one solve dense nc np mf s1 newTimes newPoints lambda 0
      (Some (ft_weight weights rel)) offsets).
Proof.
move=> p0 tp h; rewrite extended_max /ft_extendAndFitSpline /massert p0 tp eqxx h.
rewrite (maxTimeE dbl gd) !mreadOk /extended; case: ifP => lt; last by [].
by rewrite appendE.
Qed.

Hypothesis tp : size times = size pts.
Hypothesis p0 : (0 < size pts)%N.
Let e1 : (k <= n - k <= size extended - k)%N.
Proof. by have [h _ _] := extended_prefix; move: k0 sz h; clear; lia. Qed.
Let evalOk np : (np <= k.+1)%N -> forall t, kp_knot extended (k - 1) <= t ->
  t <= kp_knot extended (size extended - k) ->
  exists v, ft_evalAt dbl one np (canon dbl k extended) t = Ok v.
Proof.
move=> npk t t1 t2; have [i sg] := segment_ex good_extended t1 t2.
by have [v h _] := evalAtE good_extended sg npk; exists v.
Qed.

(* a batch that ends before the old end is rejected *)
Lemma ends_before junk dense nc np lambda honor offsets :
  (np <= k.+1)%N -> (0 < honor < 100)%N ->
  batch_ok k kps times pts -> last 0 times < kk (n - k) ->
  ft_extendAndFitSpline dbl one solve (ft_evalAt dbl one np) junk dense nc np mf cs true gen times
    pts lambda honor offsets = MThrow cs ExnSpline.
Proof.
move=> npk /andP[h0 h1] bk lt; rewrite extendE // ?(ltnW h1) //.
have -> : extended = kps by rewrite /extended ltNge (ltW lt).
have -> /= : (honor == 0)%N || (honor == 100)%N = false by move: h0 h1; clear; lia.
have [b1 b2 b3 b4 b5] := bk.
have [i0 [il [sg _]]] := batch_segments gd bk.
have ex : extended = kps by rewrite /extended ltNge (ltW lt).
have ev := evalOk npk; rewrite ex in ev; have he := e1; rewrite ex in he.
by apply: (extend_rejects one gd D solve ev pts junk _ sg he); rewrite ?tp.
Qed.

(* otherwise the extended spline becomes the best fit to the old values and the new ones *)
Lemma fits_both junk dense nc np lambda honor (offsets : bool) i0 il :
  (np <= k.+1)%N -> (0 < honor < 100)%N -> (1 < k)%N -> (2 * k <= i0 + 3)%N ->
  0 <= lambda -> (offsets -> lambda = 0) ->
  batch_ok k extended times pts -> kk (n - k) <= last 0 times ->
  is_segment k extended (head 0 times) i0 -> is_segment k extended (last 0 times) il ->
  let rel := (n - k - (i0.+1 - k))%N in
  let ks := [seq kp_knot extended p.+1 | p <- iota (i0.+1 - k) rel] in
  exists vs i0' kps', [/\ size vs = rel,
    forall j i r, (j < rel)%N -> is_segment k extended (nth 0 ks j) i ->
      nth zerov vs j r = (dm_piece dbl one k extended r i).[sec dbl one (nth 0 ks j)],
    is_segment k extended (head 0 (ks ++ times)) i0',
    ft_extendAndFitSpline dbl one solve (ft_evalAt dbl one np) junk dense nc np mf cs true gen times
      pts lambda honor offsets = MRet (canon dbl k kps') tt
  & best_fit dbl one k D extended kps' (i0'.+1 - k) il.+1 (ks ++ times) (vs ++ pts)
      (fun j => if (j < rel)%N then honor%:R / (100 - honor)%:R else 1) lambda].
Proof.
move=> npk /andP[h0 h1] k1 hk l0 ol bk lt sg0 sgl rel ks.
have [] := @extend_fits _ _ dbl one k extended good_extended D D0 et solve es
  (ft_evalAt dbl one np) (evalOk npk) times pts junk (honor%:R / (100 - honor)%:R) (n - k)%N i0
  sg0 e1 dense nc np lambda offsets il k1 hk npk l0 ol bk _ sgl; first by rewrite extended_max.
move=> vs [i0' [kps' [q1 q2 q3 q4 q5]]]; exists vs, i0', kps'; split=> //.
  move=> j i r jr sg; have := q2 j jr; rewrite -/ks.
  by have [v -> Hv] := evalAtE good_extended sg npk; move=> -[<-].
rewrite extendE // ?(ltnW h1) //.
by have -> /= : (honor == 0)%N || (honor == 100)%N = false by move: h0 h1; clear; lia.
Qed.

(* old values ignored *)
Lemma ignores_old evalAt junk dense nc np lambda (offsets : bool) i0 il :
  (np <= k.+1)%N -> 0 <= lambda -> (offsets -> lambda = 0) -> batch_ok k extended times pts ->
  is_segment k extended (head 0 times) i0 -> is_segment k extended (last 0 times) il ->
  exists2 kps',
    ft_extendAndFitSpline dbl one solve evalAt junk dense nc np mf cs true gen times
      pts lambda 0 offsets = MRet (canon dbl k kps') tt
  & best_fit dbl one k D extended kps' (i0.+1 - k) il.+1 times pts (fun=> 1) lambda.
Proof.
move=> npk l0 ol bk sg0 sgl; rewrite extendE //=.
have wa : weights_are (size pts) None (fun _ : nat => 1 : F) by [].
have := fitSplineE et good_extended D0 es dense nc npk l0 (or_intror (erefl 0%N)) ol bk wa sg0 sgl.
by rewrite addn0.
Qed.

Lemma piece_keep k' (kps1 kps2 : seq (T * vec F)) r i : good k' kps1 ->
  map fst kps2 = map fst kps1 -> (k' <= i.+1)%N -> (i + k' < size kps1)%N ->
  (forall j, (j <= i)%N -> (nth kp0 kps2 j).2 r = (nth kp0 kps1 j).2 r) ->
  dm_piece dbl one k' kps2 r i = dm_piece dbl one k' kps1 r i.
Proof.
move=> gd1 key i1 i2 same; have szE : size kps2 = size kps1 by rewrite -(size_map fst) key size_map.
have kE j : kp_knot kps2 j = kp_knot kps1 j.
  case: (ltnP j (size kps1)) => h; last by rewrite /kp_knot !nth_default ?szE.
  by rewrite /kp_knot -!(nth_map kp0 0) ?szE // key.
have k0' : (0 < k')%N by case/and3P: gd1.
rewrite /dm_piece szE.
have h1 : (k'.-1 <= i)%N by move: i1; clear; lia.
have h2 : (i < size kps1 - k')%N by move: i2; clear; lia.
rewrite !curve_piece_local //; apply: eq_fsum => c ck.
rewrite same; last by move: ck h1; clear; lia.
congr (_ *: _); have gd2 : good k' kps2.
  by move: gd1; rewrite /good /increasing key szE.
rewrite -!/(basis_poly _ _ _ _); have -> : (i - k'.-1 = i.+1 - k')%N by move: i1 k0'; clear; lia.
by apply: (prefix_basis et gd1 gd2); rewrite ?szE //; move: ck k0'; clear; lia.
Qed.

(* old values kept: whatever the fit does, no vertex of the old curve changes *)
Lemma keeps_old evalAt junk dense nc np lambda (offsets : bool) s' :
  (np <= k.+1)%N -> kk (k - 1) <= head 0 times ->
  ft_extendAndFitSpline dbl one solve evalAt junk dense nc np mf cs true gen times
    pts lambda 100 offsets = MRet s' tt ->
  exists kps', [/\ s' = canon dbl k kps', map fst kps' = map fst extended,
    forall j r, (j < n - k)%N -> (r < D)%N -> (nth kp0 kps' j).2 r = (nth kp0 kps j).2 r
  & forall i r, (k <= i.+1)%N -> (i + k < n)%N -> (r < D)%N ->
      dm_piece dbl one k kps' r i = dm_piece dbl one k kps r i].
Proof.
move=> npk hd; rewrite extendE //=; have [x1 x2 x3] := extended_prefix.
have ke : kp_knot extended (k - 1) = kk (k - 1) by rewrite x2 //; move: k0 sz; clear; lia.
have fin kps' : map fst kps' = map fst extended ->
  (forall j r, (j < n - k)%N -> (r < D)%N -> (nth kp0 kps' j).2 r = (nth kp0 extended j).2 r) ->
  [/\ canon dbl k kps' = canon dbl k kps', map fst kps' = map fst extended,
    forall j r, (j < n - k)%N -> (r < D)%N -> (nth kp0 kps' j).2 r = (nth kp0 kps j).2 r
  & forall i r, (k <= i.+1)%N -> (i + k < n)%N -> (r < D)%N ->
      dm_piece dbl one k kps' r i = dm_piece dbl one k kps r i].
  move=> key same; split=> //; first by move=> j r jn rD; rewrite same // x3.
  move=> i r i1 i2 rD.
  rewrite (@piece_keep k extended kps' r i good_extended key i1); last 2 first.
  - exact: leq_trans i2 x1.
  - by move=> j ji; apply: same => //; move: ji i2; clear; lia.
  exact: (prefix_piece et gd good_extended).
case: ifP => lt; last by move=> [<-]; exists extended; apply: fin.
have [bk|nb] : batch_ok k extended times pts \/ ~ batch_ok k extended times pts.
- rewrite /batch_ok; case: (boolP (ft_checkTimesBounds times)) => cb; last first.
    by right=> -[_ _ _ _] /checkBounds h; rewrite h ?tp // in cb.
  case: (boolP (last 0 times <= kp_knot extended (size extended - k))) => hl; last by right=> -[].
  left; split=> //; first by rewrite ke.
  by apply/checkBounds; rewrite ?tp.
- have [i0 [il [sg0 sgl]]] := batch_segments good_extended bk.
  have en : (n - k < size extended)%N by move: x1 k0 sz; clear; lia.
  rewrite (relevantE dbl good_extended sg0 en) mreadOk size_iota => fitE.
  have wa : weights_are (size pts) None (fun _ : nat => 1 : F) by [].
  have [ol|nol] : (offsets -> lambda = 0) \/ ~~ (offsets ==> (lambda == 0)).
    by case: offsets {fitE} => /=; [case: eqP => h; [left|right]|left].
    have [kps' -> [key cmp]] :=
      fitSpline_shape et good_extended D0 npk ol bk wa sg0 sgl fitE.
    exists kps'; apply: fin => // j r jn rD; apply: cmp => //.
      by move: jn x1; clear; lia.
    by rewrite negb_and -ltnNge; apply/orP; left; move: jn; clear; lia.
  have [rs _ red] := @fitSpline_reduce _ _ dbl one k D extended good_extended solve dense nc np
     times pts None lambda (n - k - (i0.+1 - k)) offsets bk.
  move: fitE; rewrite red /ft_calcFittedControlVertices /massert.
  by rewrite (negbTE nol).
- case rE: (ft_relevantControlVertices _ _ _) => [ps|e|] //.
  by rewrite mreadOk fitSpline_rejects //; exact: good_extended.
Qed.
End Fixed.
End Top.

(* the same on the states that can be reached *)
Section Built.
Variables (F : realFieldType) (T : realDomainType).
Variables (dbl : T -> F) (one : T).
Variable D : nat.
Hypothesis D0 : (0 < D)%N.
Notation mf := (euclidean F D).
Notation mf_pos := (D0 : (0 < mf_size mf)%N).

Lemma good_built k (kps : seq (T * vec F)) : good k kps ->
  built dbl mf k kps (canon dbl k kps).
Proof.
move=> gd; have ins : all (fun tp : T * vec F => mf_in mf tp.2) kps by elim: (kps).
have /and3P[k0 _ inc] := gd.
rewrite -{1}(knot_points_vertices inc ins); apply: built_init => //.
by rewrite scratch.
Qed.

Lemma best_good k (kps kps' : seq (T * vec F)) a b : good k kps -> competitor D kps kps' a b ->
  good k kps'.
Proof.
move=> gd [key _]; move: gd; rewrite /good /increasing key.
by rewrite -(size_map fst kps) -key size_map.
Qed.

Hypothesis et : exact_time dbl one.
Variable solve : nat -> mat F -> vec F -> vec F.
Hypothesis es : exact_solver solve.
Variables (k : nat) (kps : seq (T * vec F)) (s : dspline F T).
Hypothesis bs : built dbl mf k kps s.
Let gd : good k kps. Proof. by have [] := builtE mf_pos bs. Qed.
Let sE : s = canon dbl k kps. Proof. by have [] := builtE mf_pos bs. Qed.
Notation n := (size kps).
Notation kk := (kp_knot kps).

Lemma b_calc dense nc np rs times pts wf w lambda fixN (offsets : bool) i0 il :
  (np <= k.+1)%N -> 0 <= lambda -> lambda = 0 \/ fixN = 0%N -> (offsets -> lambda = 0) ->
  batch_ok k kps times pts -> numbers_knots kps (head 0 times) (last 0 times) rs ->
  weights_are (size pts) wf w ->
  is_segment k kps (head 0 times) i0 -> is_segment k kps (last 0 times) il ->
  exists s' kps',
    [/\ ft_calcFittedControlVertices dbl one solve dense nc np mf s rs times pts wf
          lambda fixN offsets = MRet s' tt, built dbl mf k kps' s'
      & best_fit dbl one k D kps kps' (i0.+1 - k + fixN) il.+1 times pts w lambda].
Proof.
move=> h1 h2 h3 h4 h5 h6 h7 h8 h9.
have [kps' e1 e2] := calcE et gd D0 es dense nc h1 h2 h3 h4 h5 h6 h7 h8 h9.
exists (canon dbl k kps'), kps'; rewrite sE; split=> //.
by apply: good_built; apply: best_good gd e2.1.
Qed.

Lemma b_fit dense nc np times pts wf w lambda fixN (offsets : bool) :
  (np <= k.+1)%N -> 0 <= lambda -> lambda = 0 \/ fixN = 0%N -> (offsets -> lambda = 0) ->
  batch_ok k kps times pts -> weights_are (size pts) wf w ->
  exists s' kps' i0 il,
    [/\ is_segment k kps (head 0 times) i0, is_segment k kps (last 0 times) il,
        ft_fitSpline dbl one solve dense nc np mf s times pts lambda fixN wf offsets = MRet s' tt,
        built dbl mf k kps' s'
      & best_fit dbl one k D kps kps' (i0.+1 - k + fixN) il.+1 times pts w lambda].
Proof.
move=> h1 h2 h3 h4 h5 h6; have [i0 [il [sg0 sgl]]] := batch_segments gd h5.
have [kps' e1 e2] := fitSplineE et gd D0 es dense nc h1 h2 h3 h4 h5 h6 sg0 sgl.
exists (canon dbl k kps'), kps', i0, il; rewrite sE; split=> //.
by apply: good_built; apply: best_good gd e2.1.
Qed.

Lemma b_fixed dense nc np times pts wf w lambda fixN (offsets : bool) i0 s' :
  (np <= k.+1)%N -> (offsets -> lambda = 0) ->
  weights_are (size pts) wf w -> is_segment k kps (head 0 times) i0 ->
  ft_fitSpline dbl one solve dense nc np mf s times pts lambda fixN wf offsets = MRet s' tt ->
  exists il kps', [/\ is_segment k kps (last 0 times) il, built dbl mf k kps' s'
    & competitor D kps kps' (i0.+1 - k + fixN) il.+1].
Proof.
move=> h1 h2 h3 sg0; rewrite sE => fitE.
have [bk|nb] : batch_ok k kps times pts \/ ~ batch_ok k kps times pts.
- case: (boolP (size times == size pts)) => [/eqP tp|/eqP tp]; last by right=> -[].
  case: (boolP (0 < size pts)%N) => p0; last by right=> -[_ h]; rewrite h in p0.
  case: (boolP (kk (k - 1) <= head 0 times)) => b1; last by right=> -[_ _ h]; rewrite h in b1.
  case: (boolP (last 0 times <= kk (n - k))) => b2; last by right=> -[_ _ _ h]; rewrite h in b2.
  case: (boolP (ft_checkTimesBounds times)) => cb; last first.
    by right=> -[_ _ _ _] /checkBounds h; rewrite h ?tp // in cb.
  by left; split=> //; apply/checkBounds; rewrite ?tp.
- have [i0' [il [sg0' sgl]]] := batch_segments gd bk.
  have e := segment_unique gd sg0' sg0; rewrite e in sg0'.
  have [kps' -> cmp] := fitSpline_shape et gd D0 h1 h2 bk h3 sg0 sgl fitE.
  by exists il, kps'; split=> //; apply: good_built; apply: best_good gd cmp.
by rewrite fitSpline_rejects in fitE.
Qed.

Lemma b_rejects dense nc np times pts wf lambda fixN (offsets : bool) :
  ~ batch_ok k kps times pts ->
  ft_fitSpline dbl one solve dense nc np mf s times pts lambda fixN wf offsets
  = MThrow s ExnSpline.
Proof. by rewrite sE; apply: fitSpline_rejects. Qed.

Lemma b_lengths np junk times pts bw i0 e :
  (np <= k.+1)%N -> is_segment k kps (head 0 times) i0 -> (k <= e <= n - k)%N ->
  exists newTimes newPoints weights rel,
  [/\ ft_extendData (ft_evalAt dbl one np) junk s times pts (kk e) bw
        = Ok (newTimes, newPoints, weights, rel),
      size newTimes = (size times + rel)%N, size newPoints = (size pts + rel)%N,
      (size weights <= rel)%N & size weights = rel <-> (2 * k <= i0 + 3)%N].
Proof.
move=> npk sg he; have /andP[ke _] := he; have [a1 _ _ _] := sg.
have ev t : kk (k - 1) <= t -> t <= kk (n - k) ->
    exists v, ft_evalAt dbl one np (canon dbl k kps) t = Ok v.
  move=> t1 t2; have [i sgt] := segment_ex gd t1 t2.
  by have [v h _] := evalAtE et gd sgt npk; exists v.
have [vs [h1 _ h]] := extendDataE gd junk pts bw ev sg he.
have [q1 q2] := size_pushed gd a1 ke.
move: h1 h q1 q2; cbv zeta; move: [seq _ | _ <- _ & _] => ks h1 h q1 q2.
do 4 eexists; rewrite sE; split; first exact: h.
- by rewrite !size_cat size_nseq addnA subnKC // addnC.
- by rewrite !size_cat size_nseq h1 addnA subnKC // addnC.
- by rewrite size_nseq.
- by rewrite size_nseq.
Qed.

Section Gen.
Variables (gen : T -> seq T) (times : seq T) (pts : seq (vec F)).
Hypothesis srt : sorted <%R (map fst kps ++ gen (last 0 times)).
Notation ext := (FitterSpec.extended D k kps gen times).

Lemma b_ends_before junk dense nc np lambda honor offsets :
  (np <= k.+1)%N -> (0 < honor < 100)%N ->
  batch_ok k kps times pts -> last 0 times < kk (n - k) ->
  ft_extendAndFitSpline dbl one solve (ft_evalAt dbl one np) junk dense nc np mf s true gen times
    pts lambda honor offsets = MThrow s ExnSpline.
Proof. by move=> h1 h2 h3 h4; rewrite sE; case: (h3) => *; apply: ends_before. Qed.

Lemma b_fits_both junk dense nc np lambda honor (offsets : bool) i0 il :
  (np <= k.+1)%N -> (0 < honor < 100)%N -> (1 < k)%N -> (2 * k <= i0 + 3)%N ->
  0 <= lambda -> (offsets -> lambda = 0) ->
  batch_ok k ext times pts -> kk (n - k) <= last 0 times ->
  is_segment k ext (head 0 times) i0 -> is_segment k ext (last 0 times) il ->
  let rel := (n - k - (i0.+1 - k))%N in
  let ks := [seq kp_knot ext p.+1 | p <- iota (i0.+1 - k) rel] in
  exists s' vs i0' kps', [/\ size vs = rel /\
    (forall j i r, (j < rel)%N -> is_segment k ext (nth 0 ks j) i ->
      nth zerov vs j r = (dm_piece dbl one k ext r i).[sec dbl one (nth 0 ks j)]),
    is_segment k ext (head 0 (ks ++ times)) i0',
    ft_extendAndFitSpline dbl one solve (ft_evalAt dbl one np) junk dense nc np mf s true gen times
      pts lambda honor offsets = MRet s' tt, built dbl mf k kps' s'
  & best_fit dbl one k D ext kps' (i0'.+1 - k) il.+1 (ks ++ times) (vs ++ pts)
      (fun j => if (j < rel)%N then honor%:R / (100 - honor)%:R else 1) lambda].
Proof.
move=> h1 h2 h3 h4 h5 h6 h7 h8 h9 h10 rel ks; have [b1 b2 _ _ _] := h7.
have [vs [i0' [kps' [q1 q2 q3 q4 q5]]]] := fits_both et D0 es gd srt b1 b2 junk dense nc h1 h2 h3 h4
  h5 h6 h7 h8 h9 h10.
exists (canon dbl k kps'), vs, i0', kps'; rewrite sE; split=> //.
by apply: good_built; apply: best_good (good_extended D gd srt) q5.1.
Qed.

Lemma b_ignores_old junk dense nc np lambda (offsets : bool) i0 il evalAt :
  (np <= k.+1)%N -> 0 <= lambda -> (offsets -> lambda = 0) -> batch_ok k ext times pts ->
  is_segment k ext (head 0 times) i0 -> is_segment k ext (last 0 times) il ->
  exists s' kps',
    [/\ ft_extendAndFitSpline dbl one solve evalAt junk dense nc np mf s true gen times
      pts lambda 0 offsets = MRet s' tt, built dbl mf k kps' s'
  & best_fit dbl one k D ext kps' (i0.+1 - k) il.+1 times pts (fun=> 1) lambda].
Proof.
move=> h1 h2 h3 h4 h5 h6; have [b1 b2 _ _ _] := h4.
have [kps' q4 q5] := ignores_old et D0 es gd srt b1 b2 evalAt junk dense nc h1 h2 h3 h4 h5 h6.
exists (canon dbl k kps'), kps'; rewrite sE; split=> //.
by apply: good_built; apply: best_good (good_extended D gd srt) q5.1.
Qed.

(* the curve before the old end *)
Lemma b_keeps_old evalAt junk dense nc np lambda (offsets : bool) s' :
  (np <= k.+1)%N -> (0 < size pts)%N -> size times = size pts -> kk (k - 1) <= head 0 times ->
  ft_extendAndFitSpline dbl one solve evalAt junk dense nc np mf s true gen times
    pts lambda 100 offsets = MRet s' tt ->
  forall t d imax np', kk (k - 1) <= t < kk (n - k) -> (np' <= k.+1)%N ->
  (if imax is Some mx then (d <= mx)%N else true) ->
  exists ev ev' v v', [/\ dm_evaluator dbl s t = Ok ev, dm_evaluator dbl s' t = Ok ev',
    eu_evalD dbl one imax np' s ev d = Ok v, eu_evalD dbl one imax np' s' ev' d = Ok v'
  & forall r, (r < D)%N -> v' r = v r].
Proof.
move=> h1 h2 h3 h4; rewrite sE => fitE t d imax np' /andP[t1 t2] npk hd.
have [kps' [-> key same pc]] := keeps_old et D0 gd srt h3 h2 h1 h4 fitE.
have [x1 x2 _] := extended_prefix D gd gen times; have gx := good_extended D gd srt.
have gd' : good k kps'.
  by move: gx; rewrite /good /increasing -key -(size_map fst ext) -key size_map.
have [i sg] := segment_ex gd t1 (ltW t2); have [i1 i2 i3 i4] := sg.
have szE : size kps' = size ext by rewrite -(size_map fst) key size_map.
have k0 : (0 < k)%N by case/and3P: gd.
have kE j : (j < n)%N -> kp_knot kps' j = kk j.
  move=> jn; rewrite -x2 // /kp_knot -!(nth_map kp0 0) ?szE ?key //; exact: leq_trans jn x1.
have sg' : is_segment k kps' t i.
  have sgx := prefix_segment gd x1 x2 sg t2.
  case: sgx => y1 y2 y3 y4; split=> //; rewrite ?szE //.
    by rewrite kE -?x2 //; move: i2; clear; lia.
  have -> : kp_knot kps' i.+1 = kp_knot ext i.+1 by rewrite kE ?x2 //; move: i2 k0; clear; lia.
  exact: y4.
have [v hv Hv] := eu_evalDE et gd sg npk hd; have [v' hv' Hv'] := eu_evalDE et gd' sg' npk hd.
exists (ev_of dbl k kps t i), (ev_of dbl k kps' t i), v, v'; split=> //.
- exact: evaluatorE.
- exact: evaluatorE.
- by move=> r rD; rewrite Hv Hv' pc.
Qed.
End Gen.
End Built.
