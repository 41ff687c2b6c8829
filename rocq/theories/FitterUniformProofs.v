(* Lemmas behind the theorems of PropsFitterU.v: the fitting constructors on uniform knots. *)
From mathcomp Require Import all_ssreflect all_algebra.
From mathcomp.algebra_tactics Require Import ring.
From mathcomp.zify Require Import zify.
From Verif Require Import Prelude CoxDeBoor CoxDeBoorProofs BSplineModel BSplineSpec
  BSplineProofs BSplineEvalProofs BSplineIntegralProofs BSplineQuadProofs LinSolve
  DMModel DMSpec DMProofs DMEvalProofs DMAccessProofs KnotModel KnotProofs KnotMainProofs
  FitterModel FitterSpec FitterAlg FitterQuadProofs FitterSysProofs FitterRowProofs
  FitterMainProofs FitterCalcProofs OptTimeProofs DMAppendProofs.
Set Implicit Arguments.
Unset Strict Implicit.
Unset Printing Implicit Defensive.
Import GRing.Theory Num.Theory Order.Theory.
Local Open Scope ring_scope.
#[local] Arguments fsum : simpl never.

Section Gen.
Variables (F : realFieldType) (T : realDomainType) (dbl : T -> F) (one : T).
Hypothesis et : exact_time dbl one.
Variables (k D : nat) (ts : seq T).
Hypotheses (k0 : (0 < k)%N) (D0 : (0 < D)%N) (srt : sorted <%R ts) (szt : (2 * k <= size ts)%N).
Variable solve : nat -> mat F -> vec F -> vec F.
Hypothesis es : exact_solver solve.
Notation zp := [seq (t, zerov : vec F) | t <- ts].

Lemma zp_knot j : (j < size ts)%N -> kp_knot zp j = nth 0 ts j.
Proof. by move=> h; rewrite /kp_knot (nth_map 0). Qed.

Lemma init_uniform dense nc np own times pts lambda :
  (np <= k.+1)%N -> 0 <= lambda -> (2 <= size pts)%N -> size times = size pts ->
  nth 0 ts (k - 1) <= head 0 times -> last 0 times <= nth 0 ts (size ts - k) ->
  (forall t, t \in times -> head 0 times <= t <= last 0 times) ->
  (if own is Some rs then numbers_knots zp (head 0 times) (last 0 times) rs else True) ->
  exists kps' i0 il, [/\
    ft_initSpline dbl one solve dense nc np (euclidean F D) (dm_new F T k) ts own times pts lambda
      = MRet (canon dbl k kps') tt,
    is_segment k zp (head 0 times) i0 /\ is_segment k zp (last 0 times) il
    & best_fit dbl one k D zp kps' (i0.+1 - k) il.+1 times pts (fun _ => 1) lambda].
Proof.
move=> npk l0 p2 stp t1 t2 tin ow.
have gz : good k zp by apply: good_zero.
have szz : size zp = size ts by rewrite size_map.
have bo : batch_ok k zp times pts.
  split=> //; first exact: ltnW.
    by rewrite zp_knot //; move: szt k0; clear; lia.
  by rewrite szz zp_knot //; move: szt k0; clear; lia.
have [_ _ b3 b4 _] := bo.
have hl : head 0 times <= last 0 times.
  have : head 0 times \in times.
    by move: p2; rewrite -stp; case: times {stp t1 t2 tin ow bo b3 b4} => // t l _; rewrite mem_head.
  by move/tin => /andP[].
have [i0 s0] := segment_ex gz b3 (le_trans hl b4).
have [il sl] := segment_ex gz (le_trans b3 hl) b4.
have [kps' e bf] := initSplineE et k0 D0 srt szt es dense nc npk l0 p2 bo ow s0 sl.
by exists kps', i0, il; split.
Qed.
End Gen.

(* ------------------------------------------------------------------ real times *)
Lemma real_numbers (F : realFieldType) (cast : F -> int) k n (tmin tmax t0 tl : F) g :
  truncates cast -> (0 < k)%N -> (0 < n)%N -> tmin < tmax -> tmin <= t0 -> tl <= tmax ->
  ig_order g = k -> ig_min g = tmin -> ig_max g = tmax -> ig_segments g = n%:Z ->
  numbers_knots [seq (t, zerov : vec F) | t <- mkseq (real_knot k n tmin tmax) (interval_num n k)]
    t0 tl (ig_getKnotIndexAtTime (dbl_policy cast) g).
Proof.
move=> tr k0 n0 lt h0 hl e1 e2 e3 e4; exists 0 => t p a b.
rewrite size_map size_mkseq => pn.
rewrite zp_knot ?size_mkseq // nth_mkseq // => c d.
rewrite /ig_getKnotIndexAtTime /= e1 e2 e3 e4 add0r.
have mono i j : (real_knot k n tmin tmax i < real_knot k n tmin tmax j) = (i < j)%N.
  case: (ltnP i j) => h; first exact: real_knot_lt.
  apply/negbTE; rewrite -leNgt; case: (ltngtP j i) h => // [h _|-> _ //].
  by apply: ltW; apply: real_knot_lt.
have ge : tmin <= t := le_trans h0 a.
case: (ltP t tmax) => ht.
  have [i [-> i1 i2 /andP[i3 i4]]] := real_resolve k0 n0 lt tr ge ht.
  have pi : p = i.
    apply/eqP; rewrite eqn_leq; apply/andP; split.
      by rewrite -ltnS -mono; exact: le_lt_trans c i4.
    case: (leqP i p) => // ip.
    have pN : (p.+1 < interval_num n k)%N by rewrite /interval_num; move: ip i2; clear; lia.
    have := d pN; rewrite zp_knot ?size_mkseq // nth_mkseq //.
    have : real_knot k n tmin tmax p.+1 <= real_knot k n tmin tmax i by rewrite leNgt mono -leqNgt.
    by move=> h1 h2; have := lt_le_trans h2 (le_trans h1 i3); rewrite ltxx.
  by rewrite /=; congr Ok; rewrite pi subrK.
have tE : t = tmax by apply/le_anti; rewrite ht (le_trans b hl).
rewrite tE (real_resolve_end n0 lt tr) /=; congr Ok.
rewrite tE in c d; have mx := real_knot_max tmin tmax k0 n0.
have p1 : (p <= n + k - 1)%N by rewrite leqNgt -mono mx -leNgt.
case: (ltnP p (n + k - 1)) => [p2|]; last by move: p1 k0; clear; lia.
have pN : (p.+1 < interval_num n k)%N by rewrite /interval_num; move: p2 k0; clear; lia.
by have := d pN; rewrite zp_knot ?size_mkseq // nth_mkseq // -{1}mx mono ltnNge p2.
Qed.

Lemma uniform_real (F : realFieldType) (cast : F -> int) : truncates cast ->
  forall (dbl : F -> F) (one : F), exact_time dbl one ->
  forall (k n D : nat) solve, (0 < k)%N -> (0 < n)%N -> (0 < D)%N -> exact_solver solve ->
  forall fuel dense nc np (tmin tmax : F) times pts lambda,
  tmin < tmax -> (n + 2 * k - 1 <= fuel)%N -> (np <= k.+1)%N -> 0 <= lambda ->
  (2 <= size pts)%N -> size times = size pts ->
  tmin <= head 0 times -> last 0 times <= tmax ->
  (forall t, t \in times -> head 0 times <= t <= last 0 times) ->
  exists kps kps' i0 il, [/\
    ft_initUniformSpline dbl one solve (dbl_policy cast) fuel dense nc np (euclidean F D)
      (dm_new F F k) tmin tmax times pts n%:Z lambda = Some (MRet (canon dbl k kps') tt),
    size kps = (n + 2 * k - 1)%N,
    forall j, (j < size kps)%N ->
      nth kp0 kps j = (tmin + (tmax - tmin) * (j%:R - (k%:R - 1)) / n%:R, zerov),
    is_segment k kps (head 0 times) i0 /\ is_segment k kps (last 0 times) il
    & best_fit dbl one k D kps kps' (i0.+1 - k) il.+1 times pts (fun _ => 1) lambda].
Proof.
move=> tr dbl one et k n D solve k0 n0 D0 es fuel dense nc np tmin tmax times pts lambda
  lt fu npk l0 p2 stp h1 h2 tin.
have hn := ig_newE k n0 lt; have hd := main_interval cast hn fu.
have szi : (2 * k <= interval_num n k)%N by rewrite /interval_num; move: n0; clear; lia.
pose ts := mkseq (real_knot k n tmin tmax) (interval_num n k).
have srt : sorted <%R ts by apply: sorted_mkseq => i _; apply: real_knot_lt.
have szt : size ts = interval_num n k by rewrite size_mkseq.
have szi' : (2 * k <= size ts)%N by rewrite szt.
pose g := IntervalGen k tmin tmax n%:Z (interval_num n k) ((n%:Z + k%:Z - 1) + k%:Z).
have h1' : nth 0 ts (k - 1) <= head 0 times.
  by rewrite nth_mkseq ?real_knot_min //; move: k0 szi; clear; lia.
have h2' : last 0 times <= nth 0 ts (size ts - k).
  rewrite szt nth_mkseq; last by move: k0 szi; clear; lia.
  have -> : (interval_num n k - k = n + k - 1)%N by rewrite /interval_num; move: k0 n0; clear; lia.
  by rewrite real_knot_max.
have nk : numbers_knots [seq (t, zerov : vec F) | t <- ts] (head 0 times) (last 0 times)
  (ig_getKnotIndexAtTime (dbl_policy cast) g) by apply: real_numbers.
have [kps' [i0 [il [e sg bf]]]] := init_uniform et k0 D0 srt szi' es dense nc
  (own := Some (ig_getKnotIndexAtTime (dbl_policy cast) g)) npk l0 p2 stp h1' h2' tin nk.
exists [seq (t, zerov) | t <- ts], kps', i0, il; split=> //.
- have ne : (size pts == 0)%N = false by rewrite -leqn0 leqNgt (ltnW p2).
  rewrite /ft_initUniformSpline [ds_evaluable _]/= stp ne.
  by rewrite h1 h2 [ds_order _]/= hn hd e.
- by rewrite size_map szt.
by move=> j; rewrite size_map => js; rewrite (nth_map 0) // nth_mkseq // -szt.
Qed.

Lemma uniform_real_over (F : realFieldType) (cast : F -> int) : truncates cast ->
  forall (dbl : F -> F) (one : F), exact_time dbl one ->
  forall (k n D : nat) solve, (0 < k)%N -> (0 < n)%N -> (0 < D)%N -> exact_solver solve ->
  forall fuel dense nc np times pts lambda,
  head 0 times < last 0 times -> (n + 2 * k - 1 <= fuel)%N -> (np <= k.+1)%N -> 0 <= lambda ->
  (2 <= size pts)%N -> size times = size pts ->
  (forall t, t \in times -> head 0 times <= t <= last 0 times) ->
  exists kps kps', [/\
    ft_initUniformSplineOverTimes dbl one solve (dbl_policy cast) fuel dense nc np (euclidean F D)
      (dm_new F F k) times pts n%:Z lambda = Some (MRet (canon dbl k kps') tt),
    size kps = (n + 2 * k - 1)%N,
    forall j, (j < size kps)%N -> nth kp0 kps j =
      (head 0 times + (last 0 times - head 0 times) * (j%:R - (k%:R - 1)) / n%:R, zerov)
    & best_fit dbl one k D kps kps' 0 (size kps - k) times pts (fun _ => 1) lambda].
Proof.
move=> tr dbl one et k n D solve k0 n0 D0 es fuel dense nc np times pts lambda lt fu npk l0 p2 stp tin.
have [kps [kps' [i0 [il [e sz kn [s0 sl] bf]]]]] := uniform_real tr et k0 n0 D0 es dense nc lt fu
  npk l0 p2 stp (lexx _) (lexx _) tin.
exists kps, kps'; split=> //; first by rewrite /ft_initUniformSplineOverTimes stp ltnNge p2 e.
have knE j : (j < size kps)%N -> kp_knot kps j = real_knot k n (head 0 times) (last 0 times) j.
  by move=> h; rewrite /kp_knot kn.
have [a1 a2 a3 a4] := s0; have [b1 b2 b3 b4] := sl.
have i0E : i0.+1 = k.
  apply/eqP; rewrite eqn_leq a1 andbT leqNgt; apply/negP => h.
  move: a3; rewrite knE; last by move: a2; clear; lia.
  have lt2 : (k - 1 < i0)%N by move: h k0; clear; lia.
  have := real_knot_lt k n0 lt lt2; rewrite (real_knot_min n (head 0 times) (last 0 times) k0).
  by rewrite ltNge => /negbTE ->.
have ilE : (il.+1 = size kps - k)%N.
  case: b4 => [b4|[b4 _]]; last by move: b4; clear; lia.
  apply/eqP; rewrite eqn_leq; apply/andP; split; first by move: b2; clear; lia.
  rewrite leqNgt; apply/negP => h; move: b4; rewrite knE; last by move: b2 k0; clear; lia.
  have lt2 : (il.+1 < n + k - 1)%N by move: h k0; rewrite sz; clear; lia.
  have := real_knot_lt k n0 lt lt2; rewrite (real_knot_max (head 0 times) (last 0 times) k0 n0).
  by rewrite ltNge => /negP h1 h2; apply: h1; apply: ltW.
by move: bf; rewrite i0E ilE subnn.
Qed.

(* ------------------------------------------------------------------ fixed knot distance *)
Lemma uniform_delta (F : realFieldType) (T : realDomainType) (dbl : T -> F) (one : T) :
  exact_time dbl one -> forall (k m D : nat) solve,
  (0 < k)%N -> (0 < m)%N -> (0 < D)%N -> exact_solver solve ->
  forall fuel dense nc np times pts (delta : T) lambda, 0 < delta ->
  head 0 times + delta *+ m.-1 < last 0 times -> last 0 times <= head 0 times + delta *+ m ->
  (m + 2 * k - 1 <= fuel)%N -> (np <= k.+1)%N -> 0 <= lambda ->
  (2 <= size pts)%N -> size times = size pts ->
  (forall t, t \in times -> head 0 times <= t <= last 0 times) ->
  exists kps kps', [/\
    ft_initUniformSplineWithKnotDelta dbl one solve fuel dense nc np (euclidean F D)
      (dm_new F T k) times pts delta lambda = Some (MRet (canon dbl k kps') tt),
    size kps = (m + 2 * k - 1)%N,
    forall j, (j < size kps)%N -> nth kp0 kps j =
      (head 0 times + delta *~ (j%:Z - (k%:Z - 1)), zerov)
    & best_fit dbl one k D kps kps' 0 (size kps - k) times pts (fun _ => 1) lambda].
Proof.
move=> et k m D solve k0 m0 D0 es fuel dense nc np times pts delta lambda d0 h1 h2 fu npk l0 p2 stp tin.
have [g' [ts [dr _ [szt srt] stepE [e1 e2]]]] := main_delta k0 d0 m0 h1 h2 fu.
have szi : (2 * k <= size ts)%N by rewrite szt; move: m0; clear; lia.
have knE j : (j < size ts)%N -> nth 0 ts j = delta_knot k (head 0 times) delta j.
  have H c : (k - 1 + c < size ts)%N -> nth 0 ts (k - 1 + c) = delta_knot k (head 0 times) delta (k - 1 + c).
    elim: c => [|c IH] hc.
      rewrite addn0 e1 /delta_knot; have -> : (k - 1)%N%:Z - (k%:Z - 1) = 0 by move: k0; clear; lia.
      by rewrite mulr0z addr0.
    have hc' : ((k - 1 + c).+1 < size ts)%N by rewrite -addnS.
    have := delta_knot_step k (head 0 times) delta (k - 1 + c); rewrite addnS => st.
    apply: (@addIr _ (- nth 0 ts (k - 1 + c))); rewrite stepE // IH ?(ltnW hc') //.
  have H2 c : (c <= k - 1)%N -> nth 0 ts (k - 1 - c) = delta_knot k (head 0 times) delta (k - 1 - c).
    elim: c => [|c IH] hc; first by rewrite subn0; have := H 0%N; rewrite addn0; apply; move: szi k0; clear; lia.
    have e : (k - 1 - c = (k - 1 - c.+1).+1)%N by move: hc; clear; lia.
    have hs : ((k - 1 - c.+1).+1 < size ts)%N by rewrite -e; move: szi k0; clear; lia.
    apply: oppr_inj; apply: (@addrI _ (nth 0 ts (k - 1 - c.+1).+1)); rewrite stepE // -e IH ?(ltnW hc) // e.
    by rewrite delta_knot_step.
  move=> hj; case: (leqP (k - 1) j) => h; first by have := H (j - (k - 1))%N; rewrite subnKC //; apply.
  by have := H2 (k - 1 - j)%N; rewrite subKn ?(ltnW h) //; apply; rewrite leq_subr.
have h1' : nth 0 ts (k - 1) <= head 0 times by rewrite e1.
have h2' : last 0 times <= nth 0 ts (size ts - k) by rewrite e2.
have [kps' [i0 [il [e [s0 sl] bf]]]] := init_uniform et k0 D0 srt szi es dense nc
  (own := None) npk l0 p2 stp h1' h2' tin I.
pose zp : seq (T * vec F) := [seq (t, zerov) | t <- ts]; rewrite -/zp in s0 sl bf.
have szz : size zp = size ts by rewrite size_map.
have gz : good k zp by apply: good_zero.
exists zp, kps'; split=> //.
- by rewrite /ft_initUniformSplineWithKnotDelta [ds_evaluable _]/= stp ltnNge p2 /= dr e.
- by rewrite szz.
- by move=> j; rewrite szz => js; rewrite (nth_map 0) // knE.
have [a1 a2 a3 a4] := s0; have [b1 b2 b3 b4] := sl.
rewrite szz in a2 b2 b4 *.
have kk j : (j < size ts)%N -> kp_knot zp j = nth 0 ts j by exact: zp_knot.
have i0E : i0.+1 = k.
  apply/eqP; rewrite eqn_leq a1 andbT leqNgt; apply/negP => h.
  have lt2 : (k - 1 < i0)%N by move: h k0; clear; lia.
  have i0s : (i0 < size zp)%N by rewrite szz; move: a2; clear; lia.
  have := kk_lt gz lt2 i0s; rewrite kk; last by move: szi k0; clear; lia.
  by rewrite e1 ltNge a3.
have ilE : (il.+1 = size ts - k)%N.
  case: b4 => [b4|[b4 _]]; last by move: b4; clear; lia.
  apply/eqP; rewrite eqn_leq; apply/andP; split; first by move: b2; clear; lia.
  rewrite leqNgt; apply/negP => h; move: b4; rewrite kk; last by move: b2 k0; clear; lia.
  apply/negP; rewrite -leNgt; apply: ltW; apply: le_lt_trans h1.
  have js : (k - 1 + m.-1 < size ts)%N by rewrite szt; move: k0 m0; clear; lia.
  have -> : head 0 times + delta *+ m.-1 = kp_knot zp (k - 1 + m.-1).
    rewrite kk // knE // /delta_knot; congr (_ + _).
    have -> : (k - 1 + m.-1)%N%:Z - (k%:Z - 1) = m.-1%:Z by move: k0; clear; lia.
    by rewrite pmulrn.
  rewrite -kk; last by move: b2 k0; clear; lia.
  by apply: (kk_le gz); rewrite ?szz //; move: h; rewrite szt; move: k0 m0; clear; lia.
by move: bf; rewrite i0E ilE subnn.
Qed.

(* ------------------------------------------------------------------ rejected arguments *)
Lemma uniform_rejects (F : realFieldType) (T : realDomainType) (dbl : T -> F) (one : T) solve tp fuel
  dense nc np mf (s : dspline F T) (minT maxT : T) times pts (n : int) lambda :
  (0 < size times)%N ->
  [\/ ds_evaluable s, head 0 times < minT, maxT < last 0 times | n <= 0 \/ maxT <= minT] ->
  exists e, ft_initUniformSpline dbl one solve tp fuel dense nc np mf s minT maxT times pts n lambda
    = Some (MThrow s e).
Proof.
move=> t0 h; rewrite /ft_initUniformSpline; case: ifP => ev; first by eexists.
rewrite -leqn0 leqNgt t0 /=; case: ifP => h2; first by eexists.
case: h => [h|h|h|h].
- by rewrite h in ev.
- by move: h2; rewrite negb_and -ltNge h.
- by move: h2; rewrite negb_and -!ltNge h orbT.
by rewrite (main_interval_rejects _ h); eexists.
Qed.
Lemma delta_rejects (F : realFieldType) (T : realDomainType) (dbl : T -> F) (one : T) solve fuel
  dense nc np mf (s : dspline F T) times pts delta lambda :
  ds_evaluable s \/ (size times < 2)%N ->
  ft_initUniformSplineWithKnotDelta dbl one solve fuel dense nc np mf s times pts delta lambda
    = Some (MThrow s ExnSpline).
Proof.
move=> h; rewrite /ft_initUniformSplineWithKnotDelta; case: ifP => // ev.
by case: h => [h|->]; rewrite ?h // in ev *.
Qed.

(* ------------------------------------------------------------------ integer times *)
Lemma ig_drain_fields (T : realDomainType) (tp : time_policy T) m (h h' : interval_gen T) us :
  ig_drain tp m h = Ok (Some (h', us)) ->
  [/\ ig_order h' = ig_order h, ig_min h' = ig_min h, ig_max h' = ig_max h
    & ig_segments h' = ig_segments h].
Proof.
elim: m h h' us => [|m IH] h h' us /=; case: ifP => // _; try by case=> <-.
rewrite /ig_getNextKnot; case: (ig_getTimeByKnotIndex _ _ _) => [t| |] //=.
by case e : (ig_drain _ _ _) => [[[h2 vs]|]| |] //= -[<- _]; have [] := IH _ _ _ e.
Qed.

Lemma nsec_numbers (F : realFieldType) (lo hi : int) k n (tmin tmax t0 tl : int_realDomainType) g :
  (0 < k)%N -> (0 < n)%N -> tmin < tmax -> (n %| tmax - tmin)%Z -> tmin <= t0 -> tl <= tmax ->
  lo <= 0 <= hi -> (tmax - tmin) * n%:Z <= hi ->
  ig_order g = k -> ig_min g = tmin -> ig_max g = tmax -> ig_segments g = n%:Z ->
  numbers_knots [seq (t : int_realDomainType, zerov : vec F)
                | t <- mkseq (nsec_ith k n tmin tmax) (interval_num n k)]
    t0 tl (ig_getKnotIndexAtTime (nsec_policy lo hi) g).
Proof.
move=> k0 n0 lt dv h0 hl r0 r1 e1 e2 e3 e4; exists 0 => t p a b.
have nd : n%:Z <= tmax - tmin.
  case/dvdzP: dv => c e; rewrite e -{1}(mul1r n%:Z) ler_pmul2r ?ltz_nat //.
  have : 0 < c * n%:Z by rewrite -e subr_gt0.
  by rewrite pmulr_lgt0 ?ltz_nat //; clear; lia.
have hn := ig_newE k n0 lt.
rewrite size_map size_mkseq => pn.
rewrite zp_knot ?size_mkseq // nth_mkseq // => c d.
rewrite /ig_getKnotIndexAtTime /= e1 e2 e3 e4 add0r.
have n0' : 0 < n%:Z by rewrite ltz_nat.
have d0 : 0 < tmax - tmin by rewrite subr_gt0.
have mono i j : (nsec_ith k n tmin tmax i < nsec_ith k n tmin tmax j) = (i < j)%N.
  case: (ltnP i j) => h; first exact: (nsec_ith_lt hn nd).
  apply/negbTE; rewrite -leNgt; case: (ltngtP j i) h => // [h _|-> _ //].
  by apply: ltW; apply: (nsec_ith_lt hn nd).
have ge : tmin <= t := le_trans h0 a.
have le : t <= tmax := le_trans b hl.
have [q qE] : exists q, nsec_getSegmentNumber lo hi tmin tmax n%:Z t = Ok q.
  rewrite /nsec_getSegmentNumber /ub_unless.
  have x0 : 0 <= t - tmin by rewrite subr_ge0.
  have xn0 : 0 <= (t - tmin) * n%:Z by apply: mulr_ge0 => //; apply: ltW.
  have xd : t - tmin <= tmax - tmin by rewrite ler_add2r.
  have xnd : (t - tmin) * n%:Z <= (tmax - tmin) * n%:Z by rewrite ler_pmul2r.
  have dn : tmax - tmin <= (tmax - tmin) * n%:Z.
    by rewrite -{1}(mulr1 (tmax - tmin)) ler_pmul2l //; move: n0; clear; lia.
  have /andP[q1 q2] := quotz_pos d0 xn0.
  set Q := quotz _ _ in q1 q2 *.
  have Q0 : 0 <= Q by rewrite -ltz_addr1 -(ltr_pmul2r d0) mul0r; exact: le_lt_trans xn0 q2.
  have Qd : Q <= Q * (tmax - tmin).
    by rewrite -{1}(mulr1 Q); apply: ler_wpmul2l => //; move: d0; clear; lia.
  case/andP: r0 => r0 r0'.
  rewrite /in_range (le_trans r0 (ltW d0)) (le_trans dn r1) (le_trans r0 x0).
  rewrite (le_trans xd (le_trans dn r1)) (le_trans r0 xn0) (le_trans xnd r1) (gt_eqF d0).
  by rewrite (le_trans r0 Q0) (le_trans (le_trans Qd q1) (le_trans xnd r1)) /=; exists Q.
rewrite qE /=; congr Ok.
case: (ltP t tmax) => ht; last first.
  have tE : t = tmax by apply/le_anti; rewrite ht le.
  rewrite tE in qE c d; rewrite (nsec_resolve_end n0' lt qE); have mx := nsec_ith_max k0 hn.
  have p1 : (p <= n + k - 1)%N by rewrite leqNgt -mono mx -leNgt.
  case: (ltnP p (n + k - 1)) => [p2|]; last by move: p1 k0; clear; lia.
  have pN : (p.+1 < interval_num n k)%N by rewrite /interval_num; move: p2 k0; clear; lia.
  have := mono (n + k - 1)%N p.+1; rewrite mx => mE.
  by have := d pN; rewrite zp_knot ?size_mkseq // nth_mkseq // mE ltnNge p2.
have kp : (k - 1 <= p)%N.
  rewrite leqNgt; apply/negP => h.
  have pN : (p.+1 < interval_num n k)%N by rewrite /interval_num; move: h n0; clear; lia.
  have := d pN; rewrite zp_knot ?size_mkseq // nth_mkseq // => lt3.
  have := mono (k - 1)%N p.+1; rewrite nsec_ith_min // (le_lt_trans ge lt3).
  by move: h; clear; lia.
have pn2 : (p < n + k - 1)%N.
  by rewrite -mono (nsec_ith_max k0 hn); exact: le_lt_trans c ht.
have pN : (p.+1 < interval_num n k)%N by rewrite /interval_num; move: pn2 k0; clear; lia.
have lt3 := d pN; rewrite zp_knot ?size_mkseq // nth_mkseq // in lt3.
have j0 : 0 <= p%:Z - (k%:Z - 1) by move: kp k0; clear; lia.
have eJ : p.+1%:Z - (k%:Z - 1) = p%:Z - (k%:Z - 1) + 1 by clear; lia.
rewrite /nsec_ith eJ in lt3.
rewrite (nsec_resolve n0' nd j0 ge c lt3 qE) dvdz_mulr // andbF.
by clear; lia.
Qed.

Lemma uniform_nsec (F : realFieldType) (lo hi : int) (dbl : int_realDomainType -> F)
  (one : int_realDomainType) : exact_time dbl one ->
  forall (k n D : nat) solve, (0 < k)%N -> (0 < n)%N -> (0 < D)%N -> exact_solver solve ->
  forall fuel dense nc np (tmin tmax : int_realDomainType) times pts lambda,
  tmin < tmax -> (n %| tmax - tmin)%Z ->
  let R := (tmax - tmin) * (n + k)%N%:Z in
  lo <= 0 <= hi -> lo <= - R -> R <= hi -> lo <= tmin - R -> tmax + R <= hi ->
  (n + 2 * k - 1 <= fuel)%N -> (np <= k.+1)%N -> 0 <= lambda ->
  (2 <= size pts)%N -> size times = size pts ->
  tmin <= head 0 times -> last 0 times <= tmax ->
  (forall t, t \in times -> head 0 times <= t <= last 0 times) ->
  exists kps kps' i0 il, [/\
    ft_initUniformSpline dbl one solve (nsec_policy lo hi) fuel dense nc np (euclidean F D)
      (dm_new F _ k) tmin tmax times pts n%:Z lambda = Some (MRet (canon dbl k kps') tt),
    size kps = (n + 2 * k - 1)%N,
    forall j, (j < size kps)%N -> nth kp0 kps j =
      (tmin + ((tmax - tmin) %/ n)%Z * (j%:Z - (k%:Z - 1)), zerov),
    is_segment k kps (head 0 times) i0 /\ is_segment k kps (last 0 times) il
    & best_fit dbl one k D kps kps' (i0.+1 - k) il.+1 times pts (fun _ => 1) lambda].
Proof.
move=> et k n D solve k0 n0 D0 es fuel dense nc np tmin tmax times pts lambda lt dv R r0 r1 r2 r3 r4
  fu npk l0 p2 stp h1 h2 tin.
have [g [g' [ts [hn hd]]]] := main_interval_nsec_total k0 n0 lt fu r0 r1 r2 r3 r4.
have tsE : ts = mkseq (nsec_ith k n tmin tmax) (interval_num n k) := nsec_drained hn hd.
have [szt e1 e2] := main_interval_nsec k0 hn hd.
have nd : n%:Z <= tmax - tmin.
  case/dvdzP: dv => c e; rewrite e -{1}(mul1r n%:Z) ler_pmul2r ?ltz_nat //.
  have : 0 < c * n%:Z by rewrite -e subr_gt0.
  by rewrite pmulr_lgt0 ?ltz_nat //; clear; lia.
move=> /(_ nd) srt.
have szi : (2 * k <= size ts)%N by rewrite szt; move: n0; clear; lia.
have h1' : nth 0 ts (k - 1) <= head 0 times by rewrite e1.
have h2' : last 0 times <= nth 0 ts (size ts - k) by rewrite e2.
have [f1 f2 f3 f4] := ig_drain_fields hd.
have [gE] : Ok _ = Ok g := etrans (esym (ig_newE k n0 lt)) hn.
rewrite -gE /= in f1 f2 f3 f4.
have rn : (tmax - tmin) * n%:Z <= hi.
  apply: le_trans r2; rewrite /R ler_pmul2l ?subr_gt0 // lez_nat; exact: leq_addr.
have nk : numbers_knots [seq (t : int_realDomainType, zerov : vec F) | t <- ts] (head 0 times) (last 0 times)
  (ig_getKnotIndexAtTime (nsec_policy lo hi) g') by rewrite tsE; apply: (nsec_numbers F).
have [kps' [i0 [il [e sg bf]]]] := init_uniform et k0 D0 srt szi es dense nc
  (own := Some (ig_getKnotIndexAtTime (nsec_policy lo hi) g')) npk l0 p2 stp h1' h2' tin nk.
exists [seq (t : int_realDomainType, zerov) | t <- ts], kps', i0, il; split=> //.
- have ne : (size pts == 0)%N = false by rewrite -leqn0 leqNgt (ltnW p2).
  rewrite /ft_initUniformSpline [ds_evaluable _]/= stp ne.
  by rewrite h1 h2 [ds_order _]/= hn hd e.
- by rewrite size_map szt.
move=> j; rewrite size_map => js; rewrite (nth_map 0) //; congr (_, _).
rewrite tsE nth_mkseq; last by rewrite tsE size_mkseq in js.
case/dvdzP: dv => c ce; rewrite /nsec_ith /nsec_knot ce mulzK; last by rewrite eqz_nat -lt0n.
by rewrite -mulrA (mulrC n%:Z) mulrA quotz_mul // ltz_nat.
Qed.

(* a resolver that is right at the first and at the last time, whatever it says in between *)
Lemma calc_any (F : realFieldType) (T : realDomainType) (dbl : T -> F) (one : T) k D
  (kps : seq (T * vec F)) solve dense nc np rs times pts i0 il (ki kl z0 : int) Ab :
  good k kps -> (0 < D)%N -> (0 < size times)%N -> (i0 <= il)%N ->
  is_segment k kps (head 0 times) i0 -> is_segment k kps (last 0 times) il ->
  rs (head 0 times) = Ok ki -> rs (last 0 times) = Ok kl ->
  let tmax := kp_knot kps (size kps - k) in
  ki - (if head 0 times == tmax then 1 else 0) = z0 + i0%:Z ->
  kl - (if last 0 times == tmax then 1 else 0) = z0 + il%:Z ->
  let f := (i0.+1 - k)%N in let N := (il.+1 - f)%N in let q := (size pts * D)%N in
  oloop 0 (size pts) (ft_row dbl one nc np (canon dbl k kps) D rs times pts None 0 false tmax
    (z0 + i0%:Z - (k%:Z - 1)) N [::]) (zerom, zerov) = Ok Ab ->
  exists2 kps',
    ft_calcFittedControlVertices dbl one solve dense nc np (euclidean F D) (canon dbl k kps) rs
      times pts None 0 0 false = MRet (canon dbl k kps') tt
    & competitor D kps kps' f il.+1 /\
      forall v r, (v < size kps)%N -> (r < D)%N -> (nth kp0 kps' v).2 r =
        base_field k kps i0 il 0 false v r
        + ext D f N (solve (N * D)%N (mulm q (trm Ab.1) Ab.1) (mulv q (trm Ab.1) Ab.2)) v r.
Proof.
move=> gd D0 t0 i0l sg0 sgl rs0 rsl tmax ki0 kl0 f N q rowE.
have [a1 a2 _ _] := sg0; have [b1 b2 _ _] := sgl.
have k0 : (0 < k)%N by case/and3P: gd.
rewrite /ft_calcFittedControlVertices [massert _ _ _ _]/= (maxTimeE dbl gd) mreadOk t0 mreadOk.
rewrite rs0 mreadOk rsl mreadOk -/tmax.
set tf := kl - _ + 1 - _.
have tfE : tf = il.+1%:Z - (i0.+1 - k)%N%:Z.
  rewrite /tf; move: ki0 kl0 a1; clear.
  by move: (if _ then _ else _) (if _ then _ else _) => x y; lia.
have fil : (f <= il)%N by rewrite /f; move: i0l k0; clear; lia.
rewrite tfE ifF; last by move: fil; rewrite /f; clear; lia.
have -> : absz (il.+1%:Z - (i0.+1 - k)%N%:Z) = N by move: fil; rewrite /N /f; clear; lia.
have -> : ki - (k%:Z - 1) - (if head 0 times == tmax then 1 else 0) + 0%N%:Z
  = z0 + i0%:Z - (k%:Z - 1).
  by move: ki0; clear; move: (if _ then _ else _) => x; lia.
rewrite rowE mreadOk /ft_motion eqxx mreadOk.
have fil0 : (i0.+1 - k + 0 <= il)%N by rewrite addn0.
have [kps' [e key cmp H]] := write_solution dbl gd D0 false sg0 sgl fil0
  (solve (N * D)%N (mulm q (trm Ab.1) Ab.1) (mulv q (trm Ab.1) Ab.2)).
exists kps'; first by move: e; rewrite addn0.
by split; [move: cmp; rewrite addn0|move=> v r vn rD; rewrite H // addn0].
Qed.
