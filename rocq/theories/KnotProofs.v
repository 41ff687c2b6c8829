(* Proofs about the knot generators and the interpolation functions of the time policies. *)
From mathcomp Require Import all_ssreflect all_algebra.
From mathcomp.algebra_tactics Require Import ring.
From mathcomp.zify Require Import zify.
From Verif Require Import Prelude CoxDeBoor DMModel DMSpec DMProofs DMConstructProofs
  DMAppendProofs DMEvalProofs DMAccessProofs DMCurveProofs DMMainProofs KnotModel.
Set Implicit Arguments.
Unset Strict Implicit.
Unset Printing Implicit Defensive.
Import GRing.Theory Num.Theory Order.Theory.
Local Open Scope ring_scope.

(* ------------------------------------------------------------------ truncating division *)
Lemma quotz_pos a b : 0 < b -> 0 <= a -> quotz a b * b <= a < (quotz a b + 1) * b.
Proof.
case: b => // b b0; case: a => // a _.
rewrite /quotz !absz_nat.
have -> : Num.sg (b : int) = 1 by apply/eqP; rewrite sgr_cp0.
rewrite mulr1; have [->|a0] := eqVneq a 0%N.
  by rewrite sgr0 mul0r mul0r add0r mul1r lexx.
have -> : Num.sg (a : int) = 1 by apply/eqP; rewrite sgr_cp0 ltz_nat lt0n.
rewrite mul1r -PoszM lez_nat leq_trunc_div -PoszD -PoszM ltz_nat addn1 ltn_ceil //.
Qed.

Lemma quotzN a b : quotz (- a) b = - quotz a b.
Proof. by rewrite /quotz abszN sgrN !mulNr. Qed.

Lemma quotz_neg a b : 0 < b -> a <= 0 -> (quotz a b - 1) * b < a <= quotz a b * b.
Proof.
move=> b0 a0; have := quotz_pos b0 (a := - a); rewrite oppr_ge0 => /(_ a0).
rewrite quotzN; move: (quotz a b) => q /andP[h1 h2].
have e1 : (- q + 1) * b = - ((q - 1) * b) by ring.
by rewrite e1 ltr_oppl opprK in h2; rewrite mulNr ler_opp2 in h1; rewrite h2 h1.
Qed.

Lemma quotz_mul a b : 0 < b -> quotz (a * b) b = a.
Proof.
move=> b0; have [h|h] := lerP 0 a.
  have /andP[h1 h2] : quotz (a * b) b * b <= a * b < (quotz (a * b) b + 1) * b.
    by apply: quotz_pos => //; apply: mulr_ge0 => //; apply: ltW.
  rewrite ler_pmul2r // in h1; rewrite ltr_pmul2r // in h2; move: h1 h2; clear; lia.
have /andP[h1 h2] : (quotz (a * b) b - 1) * b < a * b <= quotz (a * b) b * b.
  by apply: quotz_neg => //; apply: mulr_le0_ge0; apply: ltW.
rewrite ler_pmul2r // in h2; rewrite ltr_pmul2r // in h1; move: h1 h2; clear; lia.
Qed.

Lemma quotz_step d n p : 0 < n -> n <= d -> quotz (d * p) n < quotz (d * (p + 1)) n.
Proof.
move=> n0 nd; have e : d * (p + 1) = d * p + d by ring.
have d0 : 0 <= d by apply: le_trans nd; apply: ltW.
have [h|h] := lerP 0 p.
  have h0 : 0 <= d * p by apply: mulr_ge0.
  have /andP[h1 _] := quotz_pos n0 h0.
  have h0' : 0 <= d * (p + 1) by apply: mulr_ge0 => //; apply: addr_ge0.
  have /andP[_ h2] := quotz_pos n0 h0'.
  have h3 : (quotz (d * p) n + 1) * n < (quotz (d * (p + 1)) n + 1) * n.
    by apply: le_lt_trans h2; rewrite mulrDl mul1r e; apply: ler_add.
  by rewrite ltr_pmul2r // ltr_add2r in h3.
have h0 : d * p <= 0 by apply: mulr_ge0_le0 => //; apply: ltW.
have /andP[h1 _] := quotz_neg n0 h0.
have h0' : d * (p + 1) <= 0 by apply: mulr_ge0_le0 => //; move: h; clear; lia.
have /andP[_ h2] := quotz_neg n0 h0'.
have h3 : quotz (d * p) n * n < (quotz (d * (p + 1)) n) * n.
  apply: lt_le_trans h2; rewrite e; apply: lt_le_trans (_ : d * p + n <= _).
    by move: h1; rewrite mulrBl mul1r ltr_subl_addr.
  by rewrite ler_add2l.
by rewrite ltr_pmul2r // in h3.
Qed.

(* ------------------------------------------------------------------ integer interpolation *)
Definition nsec_knot (from till n pos : int) : int := from + quotz ((till - from) * pos) n.

Section Nsec.
Variables (lo hi from till n : int).
Hypothesis n0 : 0 < n.
Notation K := (nsec_knot from till n).

Lemma nsec_knot_end : K n = till.
Proof. by rewrite /nsec_knot quotz_mul // addrCA subrr addr0. Qed.
Lemma nsec_knot0 : K 0 = from.
Proof. by rewrite /nsec_knot mulr0 /quotz sgr0 !mul0r addr0. Qed.

Lemma nsec_interpE pos v : nsec_linearlyInterpolate lo hi from till n pos = Ok v -> v = K pos.
Proof.
rewrite /nsec_linearlyInterpolate; case: eqP => [->|_]; first by case=> <-; rewrite nsec_knot_end.
by rewrite /ub_unless; do 5 case: ifP => // _; case=> <-.
Qed.

Lemma nsec_interp_total pos : in_range lo hi (till - from) ->
  in_range lo hi ((till - from) * pos) -> in_range lo hi from -> in_range lo hi 0 ->
  in_range lo hi (K pos) ->
  nsec_linearlyInterpolate lo hi from till n pos = Ok (K pos).
Proof.
move=> r1 r2 r3 r0 r4; rewrite /nsec_linearlyInterpolate.
case: eqP => [->|_]; first by rewrite nsec_knot_end.
rewrite r1 /= r2 /= gt_eqF //= -/(nsec_knot from till n pos) r4 /=.
suff -> : in_range lo hi (quotz ((till - from) * pos) n) by [].
have [h|h] := lerP 0 ((till - from) * pos).
  have /andP[h1 h2] := quotz_pos n0 h; have /andP[b1 b2] := r2; have /andP[c1 c2] := r0.
  move: (quotz _ _) h1 h2 => q h1 h2.
  have q0 : 0 <= q.
    rewrite -ltz_addr1 -(ltr_pmul2r n0) mul0r; exact: le_lt_trans h h2.
  have qb : q <= q * n.
    by rewrite -{1}(mulr1 q); apply: ler_wpmul2l => //; move: n0; clear; lia.
  by rewrite /in_range (le_trans c1 q0) (le_trans qb) // (le_trans h1).
have h' := ltW h.
have /andP[h1 h2] := quotz_neg n0 h'; have /andP[b1 b2] := r2; have /andP[c1 c2] := r0.
move: (quotz _ _) h1 h2 => q h1 h2.
have q0 : q <= 0.
  suff : q - 1 < 0 by clear; lia.
  by rewrite -(ltr_pmul2r n0) mul0r; exact: lt_le_trans h1 h'.
have qb : q * n <= q.
  by rewrite -{2}(mulr1 q); apply: ler_wnmul2l => //; move: n0; clear; lia.
by rewrite /in_range (le_trans q0 c2) andbT (le_trans b1) // (le_trans h2).
Qed.

Lemma nsec_knot_err pos (F : realFieldType) :
  `|(K pos)%:~R - (from%:~R + (till - from)%:~R * pos%:~R / n%:~R : F)| < 1 :> F.
Proof.
have N0 : (0 < n%:~R :> F) by rewrite ltr0z.
have -> : (K pos)%:~R - (from%:~R + (till - from)%:~R * pos%:~R / n%:~R) =
  (quotz ((till - from) * pos) n * n - (till - from) * pos)%:~R / n%:~R :> F.
  rewrite /nsec_knot; set q := quotz _ _; move: q => q; move: (till - from) => d.
  rewrite rmorphD rmorphB /= !rmorphM /= mulrBl mulfK ?gt_eqF //.
  by rewrite opprD addrACA subrr add0r.
rewrite normf_div (gtr0_norm N0) ltr_pdivr_mulr // mul1r -intr_norm ltr_int.
move: ((till - from) * pos) => a; have [h|h] := lerP 0 a.
  have /andP[h1 h2] := quotz_pos n0 h; move: (quotz _ _) h1 h2 => q h1 h2.
  by rewrite ler0_norm ?subr_le0 // opprB ltr_subl_addl; rewrite mulrDl mul1r in h2.
have /andP[h1 h2] := quotz_neg n0 (ltW h); move: (quotz _ _) h1 h2 => q h1 h2.
by rewrite ger0_norm ?subr_ge0 // ltr_subl_addl -ltr_subl_addr; rewrite mulrBl mul1r in h1.
Qed.

(* truncation is toward tmin *)
Lemma nsec_knot_dir pos (F : realFieldType) : from <= till ->
  let x := from%:~R + (till - from)%:~R * pos%:~R / n%:~R : F in
  (0 <= pos -> (K pos)%:~R <= x) /\ (pos <= 0 -> x <= (K pos)%:~R).
Proof.
move=> ft /=; have N0 : (0 < n%:~R :> F) by rewrite ltr0z.
have d0 : 0 <= till - from by rewrite subr_ge0.
split=> h; rewrite /nsec_knot [(_ + quotz _ _)%:~R]intrD ler_add2l -intrM ?ler_pdivl_mulr ?ler_pdivr_mulr //;
  rewrite -intrM ler_int.
  by have /andP[] := quotz_pos n0 (mulr_ge0 d0 h).
by have /andP[] := quotz_neg n0 (mulr_ge0_le0 d0 h).
Qed.

Lemma nsec_knot_lt (p q : int) : n <= till - from -> p < q -> K p < K q.
Proof.
move=> nd pq; have [c ->] : exists c : nat, q = p + c.+1%:Z.
  by exists (absz (q - p - 1)%R); move: pq; clear; lia.
elim: c => [|c IH]; first by rewrite /nsec_knot ltr_add2l; apply: quotz_step.
apply: (lt_trans IH); rewrite /nsec_knot ltr_add2l.
have -> : p + c.+2%:Z = p + c.+1%:Z + 1 by rewrite -addrA; congr (_ + _); clear; lia.
exact: quotz_step.
Qed.

Lemma nsec_knot_dense : (forall p, 0 <= p < n -> K p < K (p + 1)) -> n <= till - from.
Proof.
move=> st; have h : forall c : nat, c%:Z <= n -> from + c%:Z <= K c%:Z.
  elim=> [|c IH] cn; first by rewrite addr0 nsec_knot0.
  have c1 : c%:Z <= n by move: cn; clear; lia.
  have := IH c1; have : K c%:Z < K (c%:Z + 1) by apply: st; move: cn; clear; lia.
  have -> : c%:Z + 1 = c.+1%:Z by clear; lia.
  by move: (K _) (K _) => x y; clear; lia.
have := h `|n|%N; have -> : (`|n|%N)%:Z = n by rewrite gez0_abs // ltW.
by move=> /(_ (lexx _)); rewrite nsec_knot_end; clear; lia.
Qed.
End Nsec.

(* ------------------------------------------------------------------ generator *)
Section Interval.
Variables (T : realDomainType) (tp : time_policy T).

Lemma ig_drainE fuel g (f : nat -> T) : (0 <= ig_num g) ->
  (forall i, (ig_next g <= i)%N -> i%:Z < ig_num g -> ig_getTimeByKnotIndex tp g i%:Z = Ok (f i)) ->
  (`|ig_num g| - ig_next g <= fuel)%N ->
  let N := `|ig_num g|%N in
  ig_drain tp fuel g =
    Ok (Some (IntervalGen (ig_order g) (ig_min g) (ig_max g) (ig_segments g)
      (maxn N (ig_next g)) (ig_num g),
      [seq f i | i <- iota (ig_next g) (N - ig_next g)])).
Proof.
elim: fuel g => [|fuel IH] g num0 hf fu /=; rewrite /ig_hasNextKnot.
  have le : (`|ig_num g| <= ig_next g)%N by move: fu; clear; lia.
  have -> : (ig_next g)%:Z < ig_num g = false by move: le num0; clear; lia.
  rewrite /=; have -> : (`|ig_num g| - ig_next g = 0)%N by move: le; clear; lia.
  by have /maxn_idPr -> := le; case: g {hf num0 fu le}.
case: ifP => h /=.
  have le : (`|ig_num g| <= ig_next g)%N by move: h num0; clear; lia.
  have -> : (`|ig_num g| - ig_next g = 0)%N by move: le; clear; lia.
  by have /maxn_idPr -> := le; case: g {hf num0 fu h le}.
move/negbFE: h => h; rewrite /ig_getNextKnot hf //=.
rewrite IH //=; last by move: fu h; clear; lia.
  have lt : (ig_next g < `|ig_num g|)%N by move: h; clear; lia.
  have -> : (`|ig_num g| - ig_next g)%N = (`|ig_num g| - (ig_next g).+1).+1.
    by move: lt; clear; lia.
  rewrite /=; congr (Ok (Some (IntervalGen _ _ _ _ _ _, _))).
  by move: lt; rewrite /maxn; clear; do 2 case: ifP; lia.
by move=> i ni; apply: hf; apply: ltnW.
Qed.
End Interval.

Definition interval_num (n k : nat) : nat := (n + 2 * k - 1)%N.

Lemma ig_newE (T : realDomainType) k (tmin tmax : T) (n : nat) : (0 < n)%N -> tmin < tmax ->
  ig_new k tmin tmax n%:Z =
  Ok (IntervalGen k tmin tmax n%:Z 0 ((n%:Z + k%:Z - 1) + k%:Z)).
Proof. by move=> n0 h; rewrite /ig_new /sm_assert ltz_nat n0 h. Qed.

Lemma ig_drain_newE (T : realDomainType) (tp : time_policy T) k (tmin tmax : T) (n : nat)
  (f : nat -> T) fuel : (0 < n)%N -> (interval_num n k <= fuel)%N ->
  let g := IntervalGen k tmin tmax n%:Z 0 ((n%:Z + k%:Z - 1) + k%:Z) in
  (forall i, (i < interval_num n k)%N ->
    tp_linearlyInterpolate tp tmin tmax n%:Z (i%:Z - (k%:Z - 1)) = Ok (f i)) ->
  ig_drain tp fuel g =
    Ok (Some (IntervalGen k tmin tmax n%:Z (interval_num n k) ((n%:Z + k%:Z - 1) + k%:Z),
              mkseq f (interval_num n k))).
Proof.
move=> n0 fu g hf.
have num : n%:Z + k%:Z - 1 + k%:Z = (interval_num n k)%:Z.
  by rewrite /interval_num; move: n0; clear; lia.
rewrite (@ig_drainE _ tp fuel g f) /g /= num ?subn0 //=.
by move=> i _; rewrite ltz_nat; apply: hf.
Qed.

(* ------------------------------------------------------------------ real times *)
Section RealGen.
Variables (F : realFieldType) (cast : F -> int) (k n : nat) (tmin tmax : F).
Hypotheses (k0 : (0 < k)%N) (n0 : (0 < n)%N) (tt : tmin < tmax).
Definition real_knot (i : nat) : F := tmin + (tmax - tmin) * (i%:R - (k%:R - 1)) / n%:R.

Let N0 : 0 < n%:R :> F. Proof. by rewrite ltr0n. Qed.

Lemma real_interp i : dbl_linearlyInterpolate tmin tmax n%:Z (i%:Z - (k%:Z - 1)) =
  Ok (real_knot i).
Proof.
rewrite /dbl_linearlyInterpolate /real_knot.
have e : (i%:Z - (k%:Z - 1))%:~R = i%:R - (k%:R - 1) :> F.
  by rewrite !rmorphB.
case: eqP => [h|_]; last first.
  by rewrite /ub_unless eqz_nat -lt0n n0 e.
by rewrite -e h mulfK ?gt_eqF // addrCA subrr addr0.
Qed.

Lemma real_knot_lt i j : (i < j)%N -> real_knot i < real_knot j.
Proof.
move=> ij; rewrite /real_knot ltr_add2l ltr_pmul2r ?invr_gt0 // ltr_pmul2l ?subr_gt0 //.
by rewrite ltr_add2r ltr_nat.
Qed.
Lemma real_knot_min : real_knot (k - 1) = tmin.
Proof. by rewrite /real_knot natrB // subrr mulr0 mul0r addr0. Qed.
Lemma real_knot_max : real_knot (n + k - 1) = tmax.
Proof.
rewrite /real_knot -addnBA // natrD natrB // addrK mulfK ?gt_eqF //.
by rewrite addrCA subrr addr0.
Qed.
Lemma real_knot_step i : real_knot i.+1 - real_knot i = (tmax - tmin) / n%:R.
Proof.
have ne : n%:R != 0 :> F by rewrite gt_eqF.
by rewrite /real_knot -addn1 natrD; field.
Qed.
End RealGen.

Lemma sorted_mkseq (T : realDomainType) (f : nat -> T) N :
  (forall i, (i.+1 < N)%N -> f i < f i.+1) -> sorted <%R (mkseq f N).
Proof.
move=> h; apply/(sortedP 0) => i; rewrite size_mkseq => iN.
by rewrite !nth_mkseq ?h // ltnW.
Qed.

(* ------------------------------------------------------------------ delta generator *)
Section Delta.
Variable T : realDomainType.
Implicit Types (g : delta_gen T).

Lemma dg_drainE m fuel g : (m <= fuel)%N ->
  (forall j, (j < m)%N -> dg_last g + dg_delta g *+ j < dg_beyond g) ->
  dg_beyond g <= dg_last g + dg_delta g *+ m ->
  dg_drain fuel g =
    Some (DeltaGen (dg_order g) (dg_delta g) (dg_last g + dg_delta g *+ m) (dg_beyond g),
          mkseq (fun i => dg_last g + dg_delta g *+ i.+1) m).
Proof.
elim: m fuel g => [|m IH] fuel g fu lt le.
  rewrite mulr0n addr0 in le *.
  by case: fuel {fu} => [|fuel] /=; rewrite /dg_hasNextKnot ltNge le /=; case: g {lt le}.
case: fuel fu => // fuel fu /=; rewrite /dg_hasNextKnot.
have := lt 0%N isT; rewrite mulr0n addr0 => -> /=.
rewrite IH //=.
- rewrite /addScaledDuration mulr1z; congr (Some (_, _)).
    by rewrite mulrS addrA.
  rewrite /mkseq /= -[1%N]/(1 + 0)%N iotaDl -map_comp mulr1n; congr (_ :: _).
  by apply: eq_map => i /=; rewrite [in RHS]mulrS addrA.
- move=> j jm; rewrite /addScaledDuration mulr1z -addrA -mulrS; exact: lt.
- by rewrite /addScaledDuration mulr1z -addrA -mulrS.
Qed.

Lemma dg_diverges g fuel : dg_delta g <= 0 -> dg_hasNextKnot g -> dg_drain fuel g = None.
Proof.
move=> d0; elim: fuel g d0 => [|fuel IH] g d0 h /=; rewrite h //=.
rewrite IH //; rewrite /dg_hasNextKnot /= /addScaledDuration mulr1z.
by apply: le_lt_trans h; rewrite -ler_subr_addl subrr.
Qed.
End Delta.

(* ------------------------------------------------------------------ constant spline *)
Section Const.
Variables (F : realFieldType) (T : realDomainType) (dbl : T -> F) (mf : manifold F).

Lemma addVerticesE (ts : seq T) c (s : dspline F T) : mf_in mf c ->
  dm_addControlVertices mf s [seq (t, c) | t <- ts] =
  MRet (run_cops mf s [seq AddVertex t c | t <- ts]) tt.
Proof.
move=> ic; rewrite /dm_addControlVertices /run_cops.
elim: ts s => [|t ts IH] s //=.
by rewrite /dm_addControlVertex ic /= IH.
Qed.

Lemma initConstantE k (ts : seq T) sz c : (0 < k)%N -> (0 < sz)%N -> mf_in mf c ->
  sorted <%R ts -> (2 * k <= size ts)%N ->
  exists2 s, dm_initConstantSpline dbl mf (dm_new F T k) ts sz c = MRet s tt &
    built dbl mf k [seq (t, c) | t <- ts] s.
Proof.
move=> k0 sz0 ic srt szt; set kps := [seq (t, c) | t <- ts].
have mk : map fst kps = ts by rewrite -map_comp map_id.
have inc : increasing kps by rewrite /increasing mk.
have ain : all (fun tp => mf_in mf tp.2) kps by rewrite all_map; apply/allP.
have osE : [seq AddVertex t c | t <- ts] = [seq AddVertex tp.1 tp.2 | tp <- kps].
  by rewrite -map_comp.
have gd : good k kps by rewrite /good k0 inc size_map szt.
have hi : dm_init dbl (run_cops mf (dm_new F T k) [seq AddVertex t c | t <- ts]) =
  MRet (canon dbl k kps) tt.
  by rewrite constructE osE knot_points_vertices // initE.
exists (canon dbl k kps).
  by rewrite /dm_initConstantSpline /massert /= sz0 addVerticesE.
have := built_init k0 hi; by rewrite osE knot_points_vertices.
Qed.
End Const.

(* ------------------------------------------------------------------ resolver *)
(* conversion of a nonnegative double to int *)
Definition truncates (F : realFieldType) (cast : F -> int) : Prop :=
  forall x, 0 <= x -> (cast x)%:~R <= x < (cast x + 1)%:~R.

Section Resolve.
Variables (F : realFieldType) (cast : F -> int) (k n : nat) (tmin tmax : F).
Hypotheses (k0 : (0 < k)%N) (n0 : (0 < n)%N) (tt : tmin < tmax) (tr : truncates cast).
Let N0 : 0 < n%:R :> F. Proof. by rewrite ltr0n. Qed.
Let D0 : 0 < tmax - tmin. Proof. by rewrite subr_gt0. Qed.

Lemma real_resolve t : tmin <= t -> t < tmax ->
  exists i, [/\ dbl_getSegmentNumber cast tmin tmax n%:Z t = Ok (i%:Z - (k%:Z - 1)),
    (k <= i.+1)%N, (i.+1 < n + k)%N & real_knot k n tmin tmax i <= t < real_knot k n tmin tmax i.+1].
Proof.
move=> h1 h2; rewrite /dbl_getSegmentNumber /computeDuration /ub_unless gt_eqF //=.
set x := _ / _; have x0 : 0 <= x.
  apply: divr_ge0; last exact: ltW.
  by apply: mulr_ge0; [rewrite subr_ge0|exact: ler0n].
have xn : x < n%:R.
  by rewrite /x ltr_pdivr_mulr // mulrC ltr_pmul2l // ltr_add2r.
have /andP[c1 c2] := tr x0.
have q0 : 0 <= cast x by rewrite -ltz_addr1 -(ltr_int F); exact: le_lt_trans x0 c2.
have qn : cast x < n%:Z by rewrite -(ltr_int F); exact: le_lt_trans c1 xn.
case: (cast x) q0 qn c1 c2 => // q _ qn c1 c2; rewrite ltz_nat in qn.
have e (j : nat) : (j + (k - 1))%:R - (k%:R - 1) = j%:R :> F.
  by rewrite natrD natrB // addrK.
have xE : t = tmin + (tmax - tmin) * x / n%:R.
  rewrite /x [X in _ = _ + X / _]mulrC mulfVK ?gt_eqF // mulfK ?gt_eqF //.
  by rewrite addrCA subrr addr0.
have cmp a b : (tmin + (tmax - tmin) * a / n%:R <= tmin + (tmax - tmin) * b / n%:R) = (a <= b).
  by rewrite ler_add2l ler_pmul2r ?invr_gt0 // ler_pmul2l.
exists (q + (k - 1))%N; split.
- by congr Ok; move: k0; clear; lia.
- by move: k0; clear; lia.
- by move: k0 qn; clear; lia.
rewrite xE /real_knot e -addSn e cmp ltNge cmp -ltNge.
by rewrite -[q.+1%:R]/(q.+1%:Z%:~R) -addn1 PoszD c1 c2.
Qed.

Lemma real_resolve_end : dbl_getSegmentNumber cast tmin tmax n%:Z tmax = Ok n%:Z.
Proof.
rewrite /dbl_getSegmentNumber /computeDuration /ub_unless gt_eqF //=.
rewrite mulrAC divff ?gt_eqF // mul1r; congr Ok.
have : (cast n%:Z%:~R)%:~R <= (n%:Z%:~R : F) < (cast n%:Z%:~R + 1)%:~R := tr (ltW N0).
by rewrite ler_int ltr_int; move: (cast _) => q; clear; lia.
Qed.
End Resolve.

Lemma nsec_resolve lo hi (from till n t j q : int) : 0 < n -> n <= till - from -> 0 <= j ->
  from <= t -> nsec_knot from till n j <= t -> t < nsec_knot from till n (j + 1) ->
  nsec_getSegmentNumber lo hi from till n t = Ok q ->
  q = if (t == nsec_knot from till n j) && ~~ (n %| (till - from) * j)%Z then j - 1 else j.
Proof.
move=> n0 nd j0 h0 h1 h2; rewrite /nsec_getSegmentNumber /ub_unless.
do 5 case: ifP => // _; case=> <-.
rewrite /nsec_knot in h1 h2 *.
have d0 : 0 < till - from by apply: lt_le_trans nd.
move: (till - from) nd d0 h1 h2 => d nd d0.
rewrite -[t == _]/(t == from + quotz (d * j) n).
have {h0} : 0 <= t - from by rewrite subr_ge0.
have -> : (t == from + quotz (d * j) n) = (t - from == quotz (d * j) n).
  by rewrite subr_eq addrC.
rewrite -ler_subr_addl -ltr_subl_addl.
move: (t - from) => x x0.
have dj0 : 0 <= d * j by apply: mulr_ge0 => //; apply: ltW.
have dj1 : 0 <= d * (j + 1) by apply: mulr_ge0; [apply: ltW|apply: addr_ge0].
have /andP[a1 a2] := quotz_pos n0 dj0.
have /andP[b1 _] := quotz_pos n0 dj1.
have xn0 : 0 <= x * n by apply: mulr_ge0 => //; apply: ltW.
have /andP[c1 c2] := quotz_pos d0 xn0.
set Q := quotz (x * n) d in c1 c2 *; set w := quotz (d * j) n in a1 a2 *.
set w' := quotz (d * (j + 1)) n in b1 *.
have dvd : (n %| d * j)%Z -> d * j = w * n.
  by case/dvdzP=> c h; rewrite /w h quotz_mul.
move: Q w w' a1 a2 b1 c1 c2 dvd => Q w w' a1 a2 b1 c1 c2 dvd h1 h2.
have Qj : Q <= j.
  rewrite -ltz_addr1 -(ltr_pmul2r d0) (mulrC (j + 1)); apply: (le_lt_trans c1).
  by apply: lt_le_trans b1; rewrite ltr_pmul2r.
case: ifP => [/andP[/eqP xw ndv]|h].
  have lt : w * n < d * j.
    rewrite lt_neqAle a1 andbT; apply: contra ndv => /eqP <-; exact: dvdz_mull.
  have Qlt : Q < j.
    by rewrite -(ltr_pmul2r d0) (mulrC j); apply: (le_lt_trans c1); rewrite xw.
  have Qgt : j - 1 < Q + 1.
    rewrite -(ltr_pmul2r d0); apply: le_lt_trans c2.
    rewrite xw mulrBl mul1r (mulrC j) ler_subl_addr; apply: ltW; apply: (lt_le_trans a2).
    by rewrite mulrDl mul1r ler_add2l.
  by move: Qlt Qgt; clear; lia.
have jx : d * j <= x * n.
  case: (ltrP w x) => wx.
    apply: ltW; apply: (lt_le_trans a2); rewrite ler_pmul2r //.
    by move: wx; clear; lia.
  have xw : x = w by apply/eqP; rewrite eq_le wx h1.
  by move: h; rewrite xw eqxx /= => /negbFE /dvd ->.
have Qge : j < Q + 1.
  by rewrite -(ltr_pmul2r d0) (mulrC j); apply: le_lt_trans c2.
by move: Qj Qge; clear; lia.
Qed.

Lemma nsec_resolve_end lo hi (from till n q : int) : 0 < n -> from < till ->
  nsec_getSegmentNumber lo hi from till n till = Ok q -> q = n.
Proof.
move=> n0 h; rewrite /nsec_getSegmentNumber /ub_unless.
do 5 case: ifP => // _; case=> <-.
by rewrite mulrC quotz_mul // subr_gt0.
Qed.

(* ------------------------------------------------------------------ together with the spline *)
Section Main.
Variables (F : realFieldType) (T : realDomainType) (dbl : T -> F) (mf : manifold F).
Hypothesis mf0 : (0 < mf_size mf)%N.

Lemma built_segment k kps (s : dspline F T) t i : built dbl mf k kps s ->
  is_segment k kps t i -> dm_getSegmentIterator s t = Ok i.
Proof.
move=> B sg; have [gd _] := builtE mf0 B; have /and3P[k0 sz inc] := gd.
have [h1 h2 h3 h4] := sg.
have le : kp_knot kps (k - 1) <= t <= kp_knot kps (size kps - k).
  apply/andP; split.
    by apply: le_trans h3; rewrite !kp_knotE ?keys_le ?size_map //; move: h1 h2 k0; clear; lia.
  case: h4 => [h4|[e ->]].
    apply: ltW; apply: (lt_le_trans h4).
    by rewrite !kp_knotE ?keys_le ?size_map //; move: h1 h2 k0; clear; lia.
  by rewrite -e addnK.
have [i' [ev [-> sg' _ _ _]]] := main_lookup mf0 B le.
by congr Ok; apply: segment_unique sg' sg.
Qed.
End Main.

Lemma interval_keys (F : realFieldType) (T : realDomainType) (f : nat -> T)
  (kps : seq (T * vec F)) N :
  map fst kps = mkseq f N -> size kps = N /\ forall i, (i < N)%N -> kp_knot kps i = f i.
Proof.
move=> h; have sz : size kps = N by rewrite -(size_map fst) h size_mkseq.
split=> // i iN; rewrite kp_knotE ?sz // h nth_mkseq //.
Qed.

Section MainReal.
Variables (F : realFieldType) (cast : F -> int) (dbl : F -> F) (mf : manifold F).
Hypothesis mf0 : (0 < mf_size mf)%N.
Variables (k n : nat) (tmin tmax : F) (g g' : interval_gen F) (ts : seq F) (fuel : nat).
Hypotheses (k0 : (0 < k)%N) (hn : ig_new k tmin tmax n%:Z = Ok g).

Lemma ig_new_inv : (0 < n)%N /\ tmin < tmax.
Proof.
move: hn; rewrite /ig_new /sm_assert; case: ifP => // h1; case: ifP => // h2 _; by rewrite ltz_nat in h1.
Qed.

Lemma main_interval : (interval_num n k <= fuel)%N ->
  ig_drain (dbl_policy cast) fuel g =
    Ok (Some (IntervalGen k tmin tmax n%:Z (interval_num n k) ((n%:Z + k%:Z - 1) + k%:Z),
              mkseq (real_knot k n tmin tmax) (interval_num n k))).
Proof.
have [n0 tt] := ig_new_inv.
move=> fu; have [<-] : Ok _ = Ok g := etrans (esym (ig_newE k n0 tt)) hn.
by rewrite (ig_drain_newE (f := real_knot k n tmin tmax)) // => i _; exact: real_interp.
Qed.

Hypothesis hd : ig_drain (dbl_policy cast) fuel g = Ok (Some (g', ts)).
Lemma ig_drain_mono (T : realDomainType) (tp : time_policy T) m (h h' : interval_gen T) us :
  ig_drain tp m h = Ok (Some (h', us)) ->
  forall m', (m <= m')%N -> ig_drain tp m' h = Ok (Some (h', us)).
Proof.
elim: m h h' us => [|m IH] h h' us /=; case: ifP => hx //.
- by case=> <- <- [|m'] _ /=; rewrite hx.
- by case=> <- <- [|m'] _ /=; rewrite hx.
case e : (ig_getNextKnot tp h) => [[h1 t]| |] //=.
case e2 : (ig_drain tp m h1) => [[[h2 us']|]| |] //= -[<- <-] [|m'] // mm /=.
by rewrite hx e /= (IH _ _ _ e2).
Qed.

Lemma main_drained : ts = mkseq (real_knot k n tmin tmax) (interval_num n k).
Proof.
have := ig_drain_mono hd (leq_maxl fuel (interval_num n k)).
have [n0 tt] := ig_new_inv.
have [gE] : Ok _ = Ok g := etrans (esym (ig_newE k n0 tt)) hn; rewrite -gE.
rewrite (ig_drain_newE (f := real_knot k n tmin tmax)) //.
- by case.
- exact: leq_maxr.
by move=> i _; exact: real_interp.
Qed.

Variables (kps : seq (F * vec F)) (s : dspline F F).
Hypotheses (B : built dbl mf k kps s) (mk : map fst kps = ts) (tr : truncates cast).

Lemma main_resolve t : tmin <= t < tmax ->
  exists2 i : nat, dm_getSegmentIterator s t = Ok i &
    ig_getKnotIndexAtTime (dbl_policy cast) g t = Ok i%:Z.
Proof.
case/andP=> h1 h2; have [n0 tt] := ig_new_inv.
have [i [r a b /andP[c1 c2]]] := real_resolve k0 n0 tt tr h1 h2.
have [sz kn] := interval_keys (etrans mk main_drained).
exists i.
  apply: (built_segment mf0 B); split=> //.
  - by rewrite sz /interval_num; move: a b k0 n0; clear; lia.
  - by rewrite kn // /interval_num; move: a b k0 n0; clear; lia.
  - by left; rewrite kn // /interval_num; move: a b k0 n0; clear; lia.
have [<-] : Ok _ = Ok g := etrans (esym (ig_newE k n0 tt)) hn.
by rewrite /ig_getKnotIndexAtTime /= r /= subrK.
Qed.

Lemma main_resolve_end :
  dm_getSegmentIterator s tmax = Ok (n + k - 2)%N /\
  ig_getKnotIndexAtTime (dbl_policy cast) g tmax = Ok ((n + k - 1)%N)%:Z.
Proof.
have [n0 tt] := ig_new_inv.
have [sz kn] := interval_keys (etrans mk main_drained).
split.
  apply: (built_segment mf0 B); split.
  - by move: k0 n0; clear; lia.
  - by rewrite sz /interval_num; move: k0 n0; clear; lia.
  - rewrite kn; last by rewrite /interval_num; move: k0 n0; clear; lia.
    rewrite -{2}(real_knot_max tmin tmax k0 n0); apply: ltW; apply: real_knot_lt => //.
    by move: k0 n0; clear; lia.
  - right; split; first by rewrite sz /interval_num; move: k0 n0; clear; lia.
    rewrite kn; last by rewrite /interval_num; move: k0 n0; clear; lia.
    have -> : (n + k - 2).+1 = (n + k - 1)%N by move: k0 n0; clear; lia.
    by rewrite real_knot_max.
have [<-] : Ok _ = Ok g := etrans (esym (ig_newE k n0 tt)) hn.
rewrite /ig_getKnotIndexAtTime /= real_resolve_end //=; congr Ok.
by move: k0 n0; clear; lia.
Qed.
End MainReal.

Section MainNsec.
Variables (F : realFieldType) (lo hi : int) (dbl : int -> F) (mf : manifold F).
Hypothesis mf0 : (0 < mf_size mf)%N.
Variables (k n : nat) (tmin tmax : int) (g g' : interval_gen int_realDomainType).
Variables (ts : seq int) (fuel : nat).
Hypotheses (k0 : (0 < k)%N) (hn : ig_new k (tmin : int_realDomainType) tmax n%:Z = Ok g).
Hypothesis hd : ig_drain (nsec_policy lo hi) fuel g = Ok (Some (g', ts)).

Definition nsec_ith (i : nat) : int := nsec_knot tmin tmax n%:Z (i%:Z - (k%:Z - 1)).

Lemma nsec_new_inv : (0 < n)%N /\ tmin < tmax.
Proof.
move: hn; rewrite /ig_new /sm_assert; case: ifP => // h1; case: ifP => // h2 _; by rewrite ltz_nat in h1.
Qed.

(* what was delivered, if nothing overflowed *)
Lemma nsec_drained_gen m (h h' : interval_gen int_realDomainType) us : ig_order h = k ->
  ig_min h = tmin -> ig_max h = tmax -> ig_segments h = n%:Z -> 0 <= ig_num h ->
  ig_drain (nsec_policy lo hi) m h = Ok (Some (h', us)) ->
  us = [seq nsec_ith i | i <- iota (ig_next h) (`|ig_num h| - ig_next h)].
Proof.
have [n0 _] := nsec_new_inv.
elim: m h h' us => [|m IH] h h' us e1 e2 e3 e4 num0 /=; rewrite /ig_hasNextKnot; case: ifP => hx //.
- case=> _ <-; have -> : (`|ig_num h| - ig_next h = 0)%N by move: hx num0; clear; lia.
  by [].
- case=> _ <-; have -> : (`|ig_num h| - ig_next h = 0)%N by move: hx num0; clear; lia.
  by [].
rewrite /ig_getNextKnot /ig_getTimeByKnotIndex /= e1 e2 e3 e4.
case e : (nsec_linearlyInterpolate _ _ _ _ _ _) => [t| |] //=.
case e5 : (ig_drain _ _ _) => [[[h2 us']|]| |] //= -[_ <-].
rewrite (IH _ _ _ _ _ _ _ _ e5) //=.
have -> : (`|ig_num h| - ig_next h)%N = (`|ig_num h| - (ig_next h).+1).+1.
  by move: hx; clear; lia.
by rewrite /=; congr (_ :: _); rewrite (nsec_interpE _ e) // ltz_nat.
Qed.

Lemma nsec_drained : ts = mkseq nsec_ith (interval_num n k).
Proof.
have [n0 tt] := nsec_new_inv.
have [gE] : Ok _ = Ok g := etrans (esym (ig_newE k n0 tt)) hn; have hd' := hd; rewrite -gE in hd'.
have num : n%:Z + k%:Z - 1 + k%:Z = (interval_num n k)%:Z.
  by rewrite /interval_num; move: n0; clear; lia.
rewrite (nsec_drained_gen _ _ _ _ _ hd') //= num //.
by rewrite subn0.
Qed.

Lemma nsec_ith_lt i j : n%:Z <= tmax - tmin -> (i < j)%N -> nsec_ith i < nsec_ith j.
Proof.
have [n0 _] := nsec_new_inv.
by move=> nd ij; apply: nsec_knot_lt => //; rewrite ltr_add2r ltz_nat.
Qed.
Lemma nsec_ith_min : nsec_ith (k - 1) = tmin.
Proof.
have -> : nsec_ith (k - 1) = nsec_knot tmin tmax n%:Z 0.
  by congr nsec_knot; move: k0; clear; lia.
exact: nsec_knot0.
Qed.
Lemma nsec_ith_max : nsec_ith (n + k - 1) = tmax.
Proof.
have [n0 _] := nsec_new_inv.
have -> : nsec_ith (n + k - 1) = nsec_knot tmin tmax n%:Z n%:Z.
  by congr nsec_knot; move: k0; clear; lia.
by apply: nsec_knot_end; rewrite ltz_nat.
Qed.

Variables (kps : seq (int * vec F)) (s : dspline F int_realDomainType).
Hypotheses (B : built dbl mf k kps s) (mk : map fst kps = ts).

Lemma main_nsec_resolve t r : n%:Z <= tmax - tmin -> tmin <= t < tmax ->
  ig_getKnotIndexAtTime (nsec_policy lo hi) g t = Ok r ->
  exists2 i : nat, dm_getSegmentIterator s t = Ok i &
    r = if (t == nth 0 ts i) && ~~ (n %| (tmax - tmin) * (i.+1%:Z - k%:Z))%Z
        then i%:Z - 1 else i%:Z.
Proof.
move=> nd /andP[h1 h2] hr; have [n0 tt] := nsec_new_inv.
have [sz kn] := interval_keys (etrans mk nsec_drained).
have in_ : kp_knot kps (k - 1) <= t <= kp_knot kps (size kps - k).
  rewrite !kn; [|rewrite ?sz /interval_num; move: k0 n0; clear; lia..].
  rewrite nsec_ith_min h1 /= sz.
  have -> : (interval_num n k - k)%N = (n + k - 1)%N.
    by rewrite /interval_num; move: k0 n0; clear; lia.
  by rewrite nsec_ith_max ltW.
have [i [ev [hi_ sg _ _ _]]] := main_lookup mf0 B in_.
exists i => //; have [a b c d] := sg.
rewrite sz /interval_num in b d.
have iN : (i.+1 < interval_num n k)%N by rewrite /interval_num; move: a b k0 n0; clear; lia.
rewrite nsec_drained nth_mkseq; last exact: ltnW.
have [gE] : Ok _ = Ok g := etrans (esym (ig_newE k n0 tt)) hn.
move: hr; rewrite -gE /ig_getKnotIndexAtTime /=.
case e : (nsec_getSegmentNumber _ _ _ _ _ _) => [q| |] //= -[<-].
have j0 : 0 <= i%:Z - (k%:Z - 1) by move: a; clear; lia.
have lt : t < nsec_ith i.+1.
  case: d => [|[d dt]]; first by rewrite kn.
  move: h2; rewrite dt kn // -nsec_ith_max.
  have -> : i.+1 = (n + k - 1)%N by move: d k0 n0; clear; lia.
  by rewrite ltxx.
have le : nsec_ith i <= t by rewrite -kn // ltnW.
have lt' : t < nsec_knot tmin tmax n (i%:Z - (k%:Z - 1) + 1).
  apply: (lt_le_trans lt); rewrite le_eqVlt; apply/orP; left; apply/eqP; congr nsec_knot.
  by clear; lia.
have n0' : 0 < n%:Z by rewrite ltz_nat.
rewrite (nsec_resolve n0' nd j0 h1 le lt' e) -/(nsec_ith i).
have -> : i.+1%:Z - k%:Z = i%:Z - (k%:Z - 1) by clear; lia.
by case: ifP => _; move: (i%:Z) (k%:Z) => x y; clear; lia.
Qed.
End MainNsec.
