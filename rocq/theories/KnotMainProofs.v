(* Lemmas behind the theorems of PropsKnot.v. *)
From mathcomp Require Import all_ssreflect all_algebra.
From mathcomp.algebra_tactics Require Import ring.
From mathcomp.zify Require Import zify.
From Verif Require Import Prelude CoxDeBoor DMModel DMSpec DMProofs DMMainProofs KnotModel
  KnotProofs.
Set Implicit Arguments.
Unset Strict Implicit.
Unset Printing Implicit Defensive.
Import GRing.Theory Num.Theory Order.Theory.
Local Open Scope ring_scope.

Lemma main_interval_knots (F : realFieldType) (cast : F -> int) k n (tmin tmax : F) fuel :
  (0 < k)%N -> (0 < n)%N -> tmin < tmax -> (n + 2 * k - 1 <= fuel)%N ->
  exists g g' ts, [/\ ig_new k tmin tmax n%:Z = Ok g,
    ig_drain (dbl_policy cast) fuel g = Ok (Some (g', ts)) /\ ~~ ig_hasNextKnot g',
    size ts = (n + 2 * k - 1)%N /\ sorted <%R ts,
    forall i, (i.+1 < size ts)%N -> nth 0 ts i.+1 - nth 0 ts i = (tmax - tmin) / n%:R
  & nth 0 ts (k - 1) = tmin /\ nth 0 ts (size ts - k) = tmax].
Proof.
move=> k0 n0 lt fu; have hn := ig_newE k n0 lt.
do 3 eexists; split; first exact: hn.
- split; first exact: (main_interval cast hn fu).
  by rewrite /ig_hasNextKnot /= /interval_num; move: n0; clear; lia.
- by rewrite size_mkseq; split=> //; apply: sorted_mkseq => i _; apply: real_knot_lt.
- rewrite size_mkseq => i h; rewrite !nth_mkseq ?real_knot_step //.
  exact: ltnW.
rewrite size_mkseq !nth_mkseq ?real_knot_min //; last first.
  by rewrite /interval_num; move: n0 k0; clear; lia.
  by rewrite /interval_num; move: n0 k0; clear; lia.
have -> : (interval_num n k - k)%N = (n + k - 1)%N by rewrite /interval_num; move: n0 k0; clear; lia.
by rewrite real_knot_max.
Qed.

Lemma main_interval_nsec (lo hi : int) k n (tmin tmax : int_realDomainType) fuel g g' ts :
  (0 < k)%N -> ig_new k tmin tmax n%:Z = Ok g ->
  ig_drain (nsec_policy lo hi) fuel g = Ok (Some (g', ts)) ->
  [/\ size ts = (n + 2 * k - 1)%N, nth 0 ts (k - 1) = tmin, nth 0 ts (size ts - k) = tmax
    & n%:Z <= tmax - tmin -> sorted <%R ts].
Proof.
move=> k0 hn hd; have [n0 lt] := nsec_new_inv hn; rewrite (nsec_drained hn hd).
have N : (k - 1 < interval_num n k)%N by rewrite /interval_num; move: n0 k0; clear; lia.
have N2 : (interval_num n k - k < interval_num n k)%N by rewrite /interval_num; move: n0 k0; clear; lia.
rewrite size_mkseq !nth_mkseq // nsec_ith_min //; split=> //.
  have -> : (interval_num n k - k)%N = (n + k - 1)%N by rewrite /interval_num; move: n0 k0; clear; lia.
  exact: (nsec_ith_max k0 hn).
by move=> nd; apply: sorted_mkseq => i _; apply: (nsec_ith_lt hn).
Qed.

Lemma between (d p : int) (c : nat) : 0 < d -> `|p| <= c%:Z -> - (d * c%:Z) <= d * p <= d * c%:Z.
Proof.
move=> d0; rewrite ler_norml => /andP[h1 h2].
by rewrite -mulrN !ler_pmul2l // h1.
Qed.

Lemma main_interval_nsec_total (lo hi : int) k n (tmin tmax : int_realDomainType) fuel :
  (0 < k)%N -> (0 < n)%N -> tmin < tmax -> (n + 2 * k - 1 <= fuel)%N ->
  let D := (tmax - tmin) * (n + k)%N%:Z in
  lo <= 0 <= hi -> lo <= - D -> D <= hi -> lo <= tmin - D -> tmax + D <= hi ->
  exists g g' ts, ig_new k tmin tmax n%:Z = Ok g /\
    ig_drain (nsec_policy lo hi) fuel g = Ok (Some (g', ts)).
Proof.
move=> k0 n0 lt fu D r0 r1 r2 r3 r4.
have hn := ig_newE k n0 lt.
have n0' : 0 < n%:Z by rewrite ltz_nat.
have d0 : 0 < tmax - tmin by rewrite subr_gt0.
have dD : tmax - tmin <= D.
  by rewrite /D -{1}(mulr1 (_ - _)) ler_pmul2l // lez_nat; move: n0; clear; lia.
have D0 : 0 <= D by apply: le_trans dD; apply: ltW.
do 3 eexists; split; first exact: hn.
apply: (ig_drain_newE (f := nsec_ith k n tmin tmax)) => // i iN.
have pb : `|i%:Z - (k%:Z - 1)| <= (n + k)%N%:Z.
  by move: iN k0 n0; rewrite /interval_num; clear; lia.
have /andP[b1 b2] := between d0 pb; rewrite -/D in b1 b2.
apply: nsec_interp_total => //; rewrite /in_range //.
- move: d0 dD r2 r1 D0; clear.
  move: D => D; lia.
- by rewrite (le_trans r1) // (le_trans b2).
- move: d0 D0 r3 r4; clear; move: D => D; lia.
rewrite /nsec_knot; move: (i%:Z - (k%:Z - 1)) pb b1 b2 => p pb b1 b2.
have [h|h] := lerP 0 ((tmax - tmin) * p).
  have /andP[h1 h2] := quotz_pos n0' h; move: (quotz _ _) h1 h2 => q h1 h2.
  have q0 : 0 <= q by rewrite -ltz_addr1 -(ltr_pmul2r n0') mul0r; exact: le_lt_trans h h2.
  have qb : q <= q * n%:Z by rewrite -{1}(mulr1 q); apply: ler_wpmul2l => //; move: n0; clear; lia.
  move: (le_trans qb h1) q0 b2 r3 r4 D0 d0; clear.
  move: ((tmax - tmin) * p) D => a D; lia.
have h' := ltW h.
have /andP[h1 h2] := quotz_neg n0' h'; move: (quotz _ _) h1 h2 => q h1 h2.
have q0 : q <= 0.
  suff : q - 1 < 0 by clear; lia.
  by rewrite -(ltr_pmul2r n0') mul0r; exact: lt_le_trans h1 h'.
have qb : q * n%:Z <= q by rewrite -{2}(mulr1 q); apply: ler_wnmul2l => //; move: n0; clear; lia.
move: (le_trans h2 qb) q0 b1 r3 r4 D0 d0; clear.
move: ((tmax - tmin) * p) D => a D; lia.
Qed.

Lemma main_interval_rejects (T : realDomainType) k (tmin tmax : T) (n : int) :
  n <= 0 \/ tmax <= tmin -> ig_new k tmin tmax n = Throw ExnRuntime.
Proof.
rewrite /ig_new /sm_assert => -[h|h]; first by rewrite ltNge h.
by rewrite [tmin < tmax]ltNge h; case: ifP.
Qed.

Lemma main_uniform_spline (F : realFieldType) (cast : F -> int) (dbl : F -> F)
  (mf : manifold F) k n (tmin tmax : F) fuel sz c :
  (0 < mf_size mf)%N -> (0 < k)%N -> (0 < n)%N -> tmin < tmax -> (n + 2 * k - 1 <= fuel)%N ->
  (0 < sz)%N -> mf_in mf c ->
  exists s kps, [/\ dm_initConstantUniformSpline dbl (dbl_policy cast) mf (dm_new F F k) fuel
      tmin tmax n%:Z sz c = Some (MRet s tt),
    built dbl mf k kps s /\ size kps = (n + 2 * k - 1)%N,
    forall j, (j < size kps)%N -> (nth kp0 kps j).2 = c,
    dm_getNumValidTimeSegments s = n
  & dm_getMinTime s = Ok tmin /\ dm_getMaxTime s = Ok tmax].
Proof.
move=> mf0 k0 n0 lt fu sz0 ic.
have [g [g' [ts [h1 [h2 _] [h3 srt] _ [h4 h5]]]]] := main_interval_knots cast k0 n0 lt fu.
have szt : (2 * k <= size ts)%N by rewrite h3; move: k0 n0; clear; lia.
have [s hs B] := initConstantE dbl k0 sz0 ic srt szt.
have mk : map fst [seq (t, c) | t <- ts] = ts by rewrite -map_comp map_id.
have [_ _ _ _ [e1 _ e2 e3]] := main_built mf0 B.
have szk : size [seq (t, c) | t <- ts] = size ts by rewrite size_map.
exists s, [seq (t, c) | t <- ts]; split.
- by rewrite /dm_initConstantUniformSpline [ds_order _]/= h1 h2 hs.
- by rewrite szk h3.
- by move=> j; rewrite szk => j1; rewrite (nth_map 0).
- by rewrite e1 szk h3; move: k0 n0; clear; lia.
rewrite e2 e3 !kp_knotE ?mk ?h4 ?szk ?h5 //; move: szt k0; clear; lia.
Qed.

(* ------------------------------------------------------------------ delta generator *)
Section Delta.
Variables (T : realDomainType) (k : nat) (start delta : T).
Hypotheses (k0 : (0 < k)%N) (d0 : 0 < delta).

Definition delta_knot (i : nat) : T := start + delta *~ (i%:Z - (k%:Z - 1)).
Lemma delta_last0 : dg_last (dg_new k start start delta false) = start - delta *+ k.
Proof.
rewrite /dg_new /= /addScaledDuration /ka_getNumRequiredPreambleKnots.
have -> : - ((k - 1)%N%:Z + 1) = - k%:Z by move: k0; clear; lia.
by rewrite mulrNz.
Qed.

Lemma delta_drain beyond m fuel : (0 < m)%N ->
  start + delta *+ m.-1 < beyond -> beyond <= start + delta *+ m -> (m + 2 * k - 1 <= fuel)%N ->
  dg_drain fuel (dg_new k start beyond delta false) =
  Some (DeltaGen k delta (delta_knot (m + 2 * k - 2)) (dg_extend k delta beyond),
        mkseq delta_knot (m + 2 * k - 1)).
Proof.
move=> m0 h1 h2 fu.
have lastE : dg_last (dg_new k start beyond delta false) = start - delta *+ k by exact: delta_last0.
have knE i : start - delta *+ k + delta *+ i.+1 = delta_knot i.
  rewrite /delta_knot -addrA; congr (_ + _).
  rewrite addrC !pmulrn -mulrzBr.
  by congr (_ *~ _); clear; lia.
have extE : dg_beyond (dg_new k start beyond delta false) = beyond + delta *+ (k - 1).
  rewrite /= /dg_extend /addScaledDuration; congr (_ + _).
  by have -> : k%:Z - 1 = (k - 1)%N%:Z by move: k0; clear; lia.
rewrite (dg_drainE (m := (m + 2 * k - 1)%N)) // ?lastE ?extE.
- congr (Some (_, _)); last by apply: eq_mkseqP => i _; rewrite -knE.
  have -> : (m + 2 * k - 1)%N = (m + 2 * k - 2).+1 by move: k0 m0; clear; lia.
  by rewrite [dg_delta _]/= knE -extE.
- move=> j jm; rewrite [dg_delta _]/=; apply: (le_lt_trans (y := start + delta *+ m.-1 + delta *+ (k - 1))).
    rewrite -!addrA ler_add2l addrC ler_subl_addr -!mulrnDr; apply: ler_wpmuln2l; first exact: ltW.
    by move: jm k0 m0; clear; lia.
  by rewrite ltr_add2r.
rewrite [dg_delta _]/=.
apply: (le_trans (y := start + delta *+ m + delta *+ (k - 1))); first by rewrite ler_add2r.
rewrite -!addrA ler_add2l addrC [X in _ <= X]addrC ler_subr_addr -!mulrnDr.
by apply: ler_wpmuln2l; [exact: ltW|move: k0 m0; clear; lia].
Qed.
End Delta.

Section DeltaMain.
Variables (T : realDomainType) (k : nat) (start delta : T).
Hypothesis k0 : (0 < k)%N.

Lemma delta_knot_step i : delta_knot k start delta i.+1 - delta_knot k start delta i = delta.
Proof.
rewrite /delta_knot [- (start + _)]opprD addrACA subrr add0r -mulrzBr.
have -> : i.+1%:Z - (k%:Z - 1) - (i%:Z - (k%:Z - 1)) = 1 by clear; lia.
by rewrite mulr1z.
Qed.

Lemma main_delta beyond m fuel : 0 < delta -> (0 < m)%N ->
  start + delta *+ m.-1 < beyond -> beyond <= start + delta *+ m -> (m + 2 * k - 1 <= fuel)%N ->
  exists g' ts, [/\ dg_drain fuel (dg_new k start beyond delta false) = Some (g', ts),
    ~~ dg_hasNextKnot g', size ts = (m + 2 * k - 1)%N /\ sorted <%R ts,
    forall i, (i.+1 < size ts)%N -> nth 0 ts i.+1 - nth 0 ts i = delta
  & nth 0 ts (k - 1) = start /\ nth 0 ts (size ts - k) = start + delta *+ m].
Proof.
move=> d0 m0 h1 h2 fu; do 2 eexists; split; first exact: (delta_drain k0 d0 m0 h1 h2 fu).
- rewrite /dg_hasNextKnot -leNgt /= /dg_extend /addScaledDuration /delta_knot.
  apply: (le_trans (y := start + delta *+ m + delta *~ (k%:Z - 1))); first by rewrite ler_add2r.
  rewrite -addrA ler_add2l pmulrn -mulrzDl.
  have -> : m%:Z + (k%:Z - 1) = (m + 2 * k - 2)%N%:Z - (k%:Z - 1) by move: k0 m0; clear; lia.
  by [].
- rewrite size_mkseq; split=> //; apply: sorted_mkseq => i _.
  by rewrite -subr_gt0 delta_knot_step.
- move=> i; rewrite size_mkseq => iN; rewrite !nth_mkseq ?delta_knot_step //; exact: ltnW.
rewrite size_mkseq !nth_mkseq; [|move: k0 m0; clear; lia..].
rewrite /delta_knot; split.
  by have -> : (k - 1)%N%:Z - (k%:Z - 1) = 0 by [move: k0; clear; lia]; rewrite mulr0z addr0.
have -> : (m + 2 * k - 1 - k)%N%:Z - (k%:Z - 1) = m%:Z by move: k0 m0; clear; lia.
by [].
Qed.

Lemma main_delta_extend beyond beyond' m m' fuel : 0 < delta -> (0 < m)%N -> (m <= m')%N ->
  start + delta *+ m.-1 < beyond -> beyond <= start + delta *+ m ->
  start + delta *+ m'.-1 < beyond' -> beyond' <= start + delta *+ m' ->
  (m' + 2 * k - 1 <= fuel)%N ->
  exists g1 ts1 g2 ts2, [/\
    dg_drain fuel (dg_new k start beyond delta false) = Some (g1, ts1),
    dg_drain fuel (dg_extendBeyondTime g1 beyond') = Some (g2, ts2)
  & dg_drain fuel (dg_new k start beyond' delta false) = Some (g2, ts1 ++ ts2)].
Proof.
move=> d0 m0 mm h1 h2 h3 h4 fu.
have m0' : (0 < m')%N by apply: leq_trans mm.
have fu1 : (m + 2 * k - 1 <= fuel)%N by move: fu mm; clear; lia.
rewrite (delta_drain k0 d0 m0 h1 h2 fu1) (delta_drain k0 d0 m0' h3 h4 fu).
do 4 eexists; split; first by [].
- rewrite /dg_extendBeyondTime /=.
  apply: (dg_drainE (m := (m' - m)%N)); rewrite /=.
  + by move: fu k0; clear; lia.
  + move=> j jm; rewrite /delta_knot /dg_extend /addScaledDuration.
    apply: (le_lt_trans (y := start + delta *+ m'.-1 + delta *~ (k%:Z - 1))).
      rewrite -!addrA ler_add2l !pmulrn -!mulrzDl.
      apply: ler_wpmulz2l; first exact: ltW.
      by move: jm k0 m0; clear; lia.
    by rewrite ltr_add2r.
  + rewrite /delta_knot /dg_extend /addScaledDuration.
    apply: (le_trans (y := start + delta *+ m' + delta *~ (k%:Z - 1))); first by rewrite ler_add2r.
    rewrite -!addrA ler_add2l !pmulrn -!mulrzDl.
    apply: ler_wpmulz2l; first exact: ltW.
    by move: mm k0 m0; clear; lia.
rewrite /=; congr (Some (DeltaGen _ _ _ _, _)).
  rewrite /delta_knot -addrA; congr (_ + _); rewrite pmulrn -mulrzDl; congr (_ *~ _).
  by move: mm k0 m0; clear; lia.
apply: (@eq_from_nth _ 0) => [|i]; first by rewrite size_cat !size_mkseq; move: mm k0 m0; clear; lia.
rewrite size_mkseq => iN; rewrite nth_cat size_mkseq nth_mkseq //.
case: ifP => h; first by rewrite nth_mkseq.
rewrite nth_mkseq; last by move: iN h mm k0 m0; clear; lia.
rewrite /delta_knot -addrA; congr (_ + _); rewrite pmulrn -mulrzDl; congr (_ *~ _).
by move: iN h mm k0 m0; clear; lia.
Qed.

Lemma main_delta_diverges beyond fuel : delta <= 0 -> start < beyond + delta *+ (2 * k - 1) ->
  dg_drain fuel (dg_new k start beyond delta false) = None.
Proof.
move=> d0 h; apply: dg_diverges => //; rewrite /dg_hasNextKnot /= /dg_extend /addScaledDuration.
rewrite /ka_getNumRequiredPreambleKnots.
have -> : - ((k - 1)%N%:Z + 1) = - k%:Z by move: k0; clear; lia.
rewrite mulrNz ltr_subl_addr -addrA -mulrzDl.
have -> : k%:Z - 1 + k%:Z = (2 * k - 1)%N%:Z by move: k0; clear; lia.
by [].
Qed.
End DeltaMain.

Lemma steps_exist (T : realDomainType) (start beyond delta : T) u : start < beyond ->
  beyond <= start + delta *+ u ->
  exists2 m, (0 < m)%N & start + delta *+ m.-1 < beyond <= start + delta *+ m.
Proof.
move=> lt hu; have ex : exists m, beyond <= start + delta *+ m by exists u.
have := ex_minnP ex; case=> m hm mn; exists m.
  by rewrite lt0n; apply: contraTneq lt => m0; move: hm; rewrite m0 mulr0n addr0 leNgt.
rewrite hm andbT ltNge; apply/negP => h; have := mn _ h.
case: m hm {mn h} => [|m _ /=]; last by rewrite ltnn.
by rewrite mulr0n addr0 leNgt lt.
Qed.

Lemma main_delta_steps (F : archiFieldType) (start beyond delta : F) : 0 < delta ->
  start < beyond ->
  exists2 m, (0 < m)%N & start + delta *+ m.-1 < beyond <= start + delta *+ m.
Proof.
move=> d0 lt; apply: (steps_exist (u := Num.bound ((beyond - start) / delta))) => //.
have h : (beyond - start) / delta < (Num.bound ((beyond - start) / delta))%:R.
  by apply: archi_boundP; apply: divr_ge0; [rewrite subr_ge0 ltW|apply: ltW].
rewrite -ler_subl_addl -mulr_natr mulrC -ler_pdivr_mulr //; exact: ltW.
Qed.

Lemma main_delta_steps_nsec (start beyond delta : int) : 0 < delta -> start < beyond ->
  exists2 m, (0 < m)%N & start + delta *+ m.-1 < beyond <= start + delta *+ m.
Proof.
move=> d0 lt; apply: (@steps_exist int_realDomainType _ _ _ (absz (beyond - start)%R)) => //.
rewrite -ler_subl_addl -mulr_natr natz gez0_abs; last by rewrite subr_ge0 ltW.
by rewrite ler_pmull ?subr_gt0 //; move: d0; clear; lia.
Qed.

(* ------------------------------------------------------------------ integer times *)
Section NsecMain.
Variables (lo hi from till n : int).
Hypothesis n0 : 0 < n.

Lemma main_nsec_ends v : (nsec_linearlyInterpolate lo hi from till n 0 = Ok v -> v = from) /\
  (nsec_linearlyInterpolate lo hi from till n n = Ok till).
Proof.
split; last by rewrite /nsec_linearlyInterpolate eqxx.
by move/(nsec_interpE n0) => ->; exact: nsec_knot0.
Qed.

Lemma main_nsec_error (F : realFieldType) p v : from <= till ->
  nsec_linearlyInterpolate lo hi from till n p = Ok v ->
  let x := from%:~R + (till - from)%:~R * p%:~R / n%:~R : F in
  [/\ `|v%:~R - x| < 1, 0 <= p -> v%:~R <= x & p <= 0 -> x <= v%:~R].
Proof.
move=> ft /(nsec_interpE n0) -> /=; have [h1 h2] := nsec_knot_dir n0 p F ft.
by split=> //; exact: nsec_knot_err.
Qed.

Lemma main_nsec_increasing p q v w : n <= till - from ->
  nsec_linearlyInterpolate lo hi from till n p = Ok v ->
  nsec_linearlyInterpolate lo hi from till n q = Ok w -> p < q -> v < w.
Proof.
move=> nd /(nsec_interpE n0) -> /(nsec_interpE n0) -> pq; exact: nsec_knot_lt.
Qed.

Lemma main_nsec_only_if (v : int -> int) :
  (forall p, 0 <= p <= n -> nsec_linearlyInterpolate lo hi from till n p = Ok (v p)) ->
  (forall p, 0 <= p < n -> v p < v (p + 1)) -> n <= till - from.
Proof.
move=> h st; apply: (nsec_knot_dense n0) => p pb.
have e1 := nsec_interpE n0 (h p _); rewrite -e1; last by move: pb; clear; lia.
have e2 := nsec_interpE n0 (h (p + 1) _); rewrite -e2; last by move: pb; clear; lia.
exact: st.
Qed.

Lemma main_nsec_total p : lo <= 0 <= hi ->
  lo <= from <= hi -> lo <= till - from <= hi -> lo <= (till - from) * p <= hi ->
  lo <= from + (till - from) * p -> from + (till - from) * p <= hi ->
  exists v, nsec_linearlyInterpolate lo hi from till n p = Ok v.
Proof.
move=> r0 r1 r2 r3 r4 r5; eexists; apply: nsec_interp_total => //.
rewrite /in_range /nsec_knot; move: ((till - from) * p) r3 r4 r5 => a r3 r4 r5.
have [h|h] := lerP 0 a.
  have /andP[h1 h2] := quotz_pos n0 h; move: (quotz _ _) h1 h2 => q h1 h2.
  have q0 : 0 <= q by rewrite -ltz_addr1 -(ltr_pmul2r n0) mul0r; exact: le_lt_trans h h2.
  have qb : q <= q * n by rewrite -{1}(mulr1 q); apply: ler_wpmul2l => //; move: n0; clear; lia.
  by move: (le_trans qb h1) q0 r1 r4 r5; clear; lia.
have h' := ltW h.
have /andP[h1 h2] := quotz_neg n0 h'; move: (quotz _ _) h1 h2 => q h1 h2.
have q0 : q <= 0.
  suff : q - 1 < 0 by clear; lia.
  by rewrite -(ltr_pmul2r n0) mul0r; exact: lt_le_trans h1 h'.
have qb : q * n <= q by rewrite -{2}(mulr1 q); apply: ler_wnmul2l => //; move: n0; clear; lia.
by move: (le_trans h2 qb) q0 r1 r4 r5; clear; lia.
Qed.
End NsecMain.

Lemma main_nsec_divisible (F : realFieldType) (lo hi : int) (dbl : int -> F)
  (mf : manifold F) : (0 < mf_size mf)%N ->
  forall k n (tmin tmax : int_realDomainType) g g' ts fuel,
  (0 < k)%N -> ig_new k tmin tmax n%:Z = Ok g ->
  ig_drain (nsec_policy lo hi) fuel g = Ok (Some (g', ts)) ->
  forall kps s, built dbl mf k kps s -> map fst kps = ts ->
  forall t r, (n %| tmax - tmin)%Z -> tmin <= t < tmax ->
  ig_getKnotIndexAtTime (nsec_policy lo hi) g t = Ok r ->
  exists2 i : nat, dm_getSegmentIterator s t = Ok i & r = i%:Z.
Proof.
move=> mf0 k n tmin tmax g g' ts fuel k0 hn hd kps s B mk t r dv ht hr.
have [n0 lt] := nsec_new_inv hn.
have nd : n%:Z <= tmax - tmin.
  case/dvdzP: dv => c e; rewrite e -{1}(mul1r n%:Z) ler_pmul2r ?ltz_nat //.
  have : 0 < c * n%:Z by rewrite -e subr_gt0.
  by rewrite pmulr_lgt0 ?ltz_nat //; clear; lia.
have [i e1 e2] := main_nsec_resolve mf0 k0 hn hd B mk nd ht hr.
by exists i => //; rewrite e2 dvdz_mulr // andbF.
Qed.

Lemma rat_truncates : truncates (fun x : rat => (numq x %/ denq x)%Z).
Proof.
move=> x x0; have d0 := denq_gt0 x.
have D0 : 0 < (denq x)%:~R :> rat by rewrite ltr0z.
have /andP[h1 h2] : (numq x %/ denq x)%Z%:~R * (denq x)%:~R <= ((numq x)%:~R : rat) <
  ((numq x %/ denq x)%Z + 1)%:~R * (denq x)%:~R.
  rewrite -!intrM ler_int ltr_int lez_floor ?gt_eqF //=; exact: ltz_ceil.
by rewrite -{3 4}(divq_num_den x) ler_pdivl_mulr // ltr_pdivr_mulr // h1 h2.
Qed.
