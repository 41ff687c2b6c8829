(* evalIntegral of a Euclidean spline is the difference of an antiderivative. *)
From mathcomp Require Import all_ssreflect all_algebra.
From mathcomp.algebra_tactics Require Import ring.
From mathcomp.zify Require Import zify.
From Verif Require Import Prelude CoxDeBoor CoxDeBoorProofs BSplineModel BSplineProofs
  BSplineEvalProofs BSplineIntegralProofs DMModel DMSpec DMEvalProofs DMAccessProofs DMMainProofs
  DMIntegralSpec.
Set Implicit Arguments.
Unset Strict Implicit.
Unset Printing Implicit Defensive.
Import GRing.Theory Num.Theory Order.Theory.
Local Open Scope ring_scope.
#[local] Arguments fsum : simpl never.
#[local] Arguments oloop : simpl never.

Local Lemma okb A B (a : A) (f : A -> outcome B) : obind (Ok a) f = f a.
Proof. by []. Qed.

(* antiderivatives of piecewise polynomial functions exist *)
Section Acc.
Variable F : realFieldType.
Variables (t : nat -> F) (n k : nat) (f : nat -> {poly F}).
Hypothesis mono : forall a b, (a <= b)%N -> (b < n)%N -> t a <= t b.
Hypothesis k0 : (0 < k)%N.
Definition gacc_const (i : nat) : F :=
  fsum i (fun j => (antip (f j)).[t j.+1] - (antip (f j)).[t j]).
Definition gseg_index (x : F) : nat := find (fun i => x < t i.+1) (iota 0 (n - k).-1).
Definition gacc (x : F) : F :=
  let i := gseg_index x in gacc_const i + (antip (f i)).[x] - (antip (f i)).[t i].

Lemma gacc_flat i j : (i <= j)%N -> (j < n)%N -> t i = t j -> gacc_const i = gacc_const j.
Proof.
elim: j => [|j IH] ij jn e; first by move: ij; rewrite leqn0 => /eqP ->.
move: ij; rewrite leq_eqVlt => /orP[/eqP -> //|ij].
have ej : t i = t j.
  by apply/eqP; rewrite eq_le {2}e !mono //; apply: ltn_trans jn.
by rewrite IH ?(ltn_trans _ jn) // /gacc_const [in RHS]/fsum -/fsum -e -ej subrr addr0.
Qed.

Lemma gaccE i x : (i + k < n)%N -> t i <= x -> x <= t i.+1 ->
  gacc x = gacc_const i + (antip (f i)).[x] - (antip (f i)).[t i].
Proof.
move=> iN x1 x2; rewrite /gacc; set j := gseg_index x.
have jb : (j <= (n - k).-1)%N.
  by rewrite /j /gseg_index -[X in (_ <= X)%N](size_iota 0); exact: find_size.
have jn : (j.+1 < n)%N by move: jb k0 iN; clear; lia.
case: (ltngtP i j) => [lt|gt|->] //.
  have before m : (m < j)%N -> t m.+1 <= x.
    move=> mj; have := before_find 0%N mj; rewrite nth_iota; last exact: leq_trans mj jb.
    by rewrite add0n => /negbT; rewrite -leNgt.
  have xe : x = t i.+1 by apply/eqP; rewrite eq_le x2 before.
  have je : t j = x.
    apply/eqP; rewrite eq_le {2}xe mono // ?(ltnW jn) // andbT.
    by case: (j) lt before => [//|m] _ b; apply: b.
  rewrite je addrK -(@gacc_flat i.+1 j) // ?(ltnW jn) ?je //.
  by rewrite /gacc_const [fsum i.+1 _]/fsum -/fsum -xe addrA.
have jl : (j < (n - k).-1)%N by move: gt iN; clear; lia.
have hf : has (fun m => x < t m.+1) (iota 0 (n - k).-1) by rewrite has_find size_iota.
have := nth_find 0%N hf; rewrite -/(gseg_index x) -/j nth_iota // add0n => lt.
have : t j.+1 <= t i by apply: mono => //; move: k0 iN; clear; lia.
by move=> /(lt_le_trans lt) /lt_le_trans /(_ x1); rewrite ltxx.
Qed.

Lemma gacc_poly i : (i + k < n)%N -> exists2 P : {poly F}, P^`() = f i &
  forall x, t i <= x -> x <= t i.+1 -> gacc x = P.[x].
Proof.
move=> iN; exists (antip (f i) + (gacc_const i - (antip (f i)).[t i])%:P).
  by rewrite derivD derivC addr0 antipK.
move=> x x1 x2; rewrite (gaccE iN x1 x2) hornerD hornerC; ring.
Qed.
End Acc.

Section Integral.
Variables (F : realFieldType) (T : realDomainType).
Variables (dbl : T -> F) (one : T).
Hypothesis et : exact_time dbl one.
Notation sc := (sec dbl one).
Variables (k : nat) (kps : seq (T * vec F)).
Hypothesis gd : good k kps.
Notation n := (size kps).
Notation cs := (canon dbl k kps).
Notation kk := (kp_knot kps).
Notation st := (fun j => sc (kk j)).
Notation pt := (fun j r => (nth kp0 kps j).2 r).
Notation piece := (dm_piece dbl one k kps).
Variable thr : F.

Let k0 : (0 < k)%N. Proof. by case/and3P: gd. Qed.
Let sz : (2 * k <= n)%N. Proof. by case/and3P: gd. Qed.

Lemma dm_antiderivative_ex r : exists G, dm_antiderivative dbl one k kps r G.
Proof.
exists (gacc st n k (piece r)) => i ki iN.
by have := gacc_poly (piece r) (st_mono et gd) k0 iN.
Qed.

Definition dmono r i q : F :=
  fsum k (fun c => pt (i.+1 - k + c)%N r * Mmat st k i q c).

Lemma dpiece_mono r i : (k <= i.+1)%N -> (i + k < n)%N ->
  piece r i = fsum k (fun q => dmono r i q *: lin st i ^+ q).
Proof.
move=> ki iN; have pos : st i < st i.+1 by apply: (seg_pos et gd); move: k0 iN; clear; lia.
rewrite /dm_piece curve_piece_local; [|by move: k0 ki iN sz; clear; lia..].
have -> : (k.-1.+1 = k)%N by move: k0; clear; lia.
rewrite [RHS](eq_fsum (g := fun q => fsum k (fun c => pt (i.+1 - k + c)%N r *:
    (Mmat st k i q c *: lin st i ^+ q)))); last first.
  move=> q _; rewrite /dmono !fsumE scaler_suml; apply: eq_bigr => c _; by rewrite scalerA.
rewrite exchange_fsum; apply: eq_fsum => c ck.
rewrite -fsum_scale; have e : (i - k.-1 = i.+1 - k)%N by move: k0 ki; clear; lia.
rewrite e; congr (_ *: _); rewrite -e.
rewrite -(Mmat_poly (N := n) (st_mono et gd) pos) //; [|by move: k0 ck ki iN; clear; lia..].
by have -> : (k.-1.+1 = k)%N by move: k0; clear; lia.
Qed.

Definition damono r i : {poly F} :=
  fsum k (fun q => (dmono r i q * (st i.+1 - st i) / q.+1%:R) *: lin st i ^+ q.+1).

Lemma damono_deriv r i : (k <= i.+1)%N -> (i + k < n)%N -> (damono r i)^`() = piece r i.
Proof.
move=> ki iN; have pos : st i < st i.+1 by apply: (seg_pos et gd); move: k0 iN; clear; lia.
rewrite dpiece_mono // /damono !fsumE raddf_sum; apply: eq_bigr => q _ /=.
have w0 : st i.+1 - st i != 0 by rewrite subr_eq0 gt_eqF.
have q0 : q.+1%:R != 0 :> F by rewrite pnatr_eq0.
have ld : (lin st i)^`() = ((st i.+1 - st i)^-1)%:P.
  by rewrite /lin derivZ derivB derivX derivC subr0 alg_polyC.
rewrite derivZ deriv_exp ld mul_polyC -scalerMnr -scaler_nat !scalerA -pred_Sn.
by congr (_ *: _); move: q0; move: (q.+1%:R) => z q0; field; rewrite w0 q0.
Qed.

Lemma dpart_value r G i x : dm_antiderivative dbl one k kps r G -> (k <= i.+1)%N ->
  (i + k < n)%N -> st i <= x -> x <= st i.+1 ->
  fsum k (fun q => (st i.+1 - st i) * dmono r i q *
     (((x - st i) / (st i.+1 - st i)) ^+ q.+1 / q.+1%:R)) = G x - G (st i).
Proof.
move=> HG ki iN x1 x2; have [P dP GP] := HG i ki iN.
have pos : st i < st i.+1 by apply: (seg_pos et gd); move: k0 iN; clear; lia.
rewrite !GP // ?ltW // (@deriv_same _ P (damono r i)) ?damono_deriv //.
rewrite /damono !fsumE !horner_sum -sumrB; apply: eq_bigr => q _.
rewrite !hornerZ !horner_exp /lin !hornerZ !hornerD !hornerN !hornerX !hornerC subrr mulr0.
rewrite expr0n mulr0 subr0 [in RHS](mulrC (_^-1)); by rewrite (mulrC _ (dmono r i q)) -!mulrA [X in _ * (_ * X) = _]mulrC.
Qed.

(* one linear combination of the vertices of segment i *)
Lemma localViE i v : (k <= i.+1)%N -> (i + k < n)%N ->
  exists2 w, dm_computeLocalVi cs v i = Ok w &
    forall c, w c = fsum k (fun q => v q * Mmat st k i q c).
Proof.
move=> ki iN; have [B hB HB] := basisE et gd ki iN.
rewrite /dm_computeLocalVi hB /=; eexists; first by reflexivity.
by move=> c; rewrite /dm_multAtB /dotv; apply: eq_fsum => q _; rewrite HB.
Qed.

Lemma combFirstE i c res : (i + k <= n)%N ->
  exists2 v, dm_combFirst (ds_segs cs) i k true c res = Ok v &
    forall r, v r = res r + fsum k (fun j => c j * pt (i + j)%N r).
Proof.
move=> ik; rewrite /dm_combFirst.
apply: (oloop_ind (I := fun q (v : vec F) => forall r,
   v r = res r + fsum q (fun j => c j * pt (i + j)%N r))) => //.
  by move=> r; rewrite /fsum addr0.
move=> q v /andP[_ qk] Hv; rewrite size_canon //.
have lt : (i + q < n)%N by apply: leq_trans ik; rewrite ltn_add2l.
rewrite lt /=; eexists; first by reflexivity.
by move=> r /=; rewrite Hv canon_pt // [in RHS]/fsum -/fsum addrA.
Qed.

Lemma combLast_addE i c res : (k <= i.+1)%N -> (i < n)%N ->
  exists2 v, dm_combLast (ds_segs cs) i k true c res = Ok v &
    forall r, v r = res r + fsum k (fun j => c j * pt (i.+1 - k + j)%N r).
Proof.
move=> i1 i2; rewrite /dm_combLast.
set body := (X in oloop 0 k X).
have [st' -> [Hst _]] : exists2 st, oloop 0 k body (res, i.+1) = Ok st &
   (forall r, st.1 r = res r + fsum k (fun x => c (k - 1 - x)%N * pt (i - x)%N r)) /\
   st.2 = (i.+1 - k)%N.
  apply: (oloop_ind (I := fun q (st : vec F * nat) =>
     (forall r, st.1 r = res r + fsum q (fun x => c (k - 1 - x)%N * pt (i - x)%N r)) /\
     st.2 = (i.+1 - q)%N)) => //.
    by split; [move=> r; rewrite /fsum addr0|rewrite subn0].
  move=> q [v e] /= qk [Hr He]; rewrite /body He size_canon //.
  rewrite /ub_unless; have -> : (0 < i.+1 - q <= n)%N by move: qk i1 i2; clear; lia.
  eexists; first by reflexivity.
  have -> : ((i.+1 - q).-1 = i - q)%N by clear; lia.
  split=> /=; last by clear; lia.
  move=> r; rewrite Hr canon_pt //; last by move: i2; clear; lia.
  by rewrite addrA.
case: st' Hst => v e /= Hv; exists v => // r.
rewrite Hv; congr (_ + _); rewrite !fsumE (reindex_inj rev_ord_inj) /=; apply: eq_bigr => x _.
have xk := ltn_ord x.
have e1 : (k - 1 - (k - x.+1) = x)%N by move: xk; clear; lia.
have e2 : (i - (k - x.+1) = i.+1 - k + x)%N by move: xk i1; clear; lia.
by rewrite e1 e2.
Qed.

Lemma computeVE t i q : is_segment k kps t i -> (q < k)%N ->
  dm_computeV k (ev_of dbl k kps t i) q =
  ((sc t - st i) / (st i.+1 - st i)) ^+ q.+1 / q.+1%:R.
Proof.
move=> [i1 i2 i3 i4] qk; rewrite /dm_computeV /=.
have lt : kk i < kk i.+1 by apply: (kk_lt gd) => //; move: k0 i2; clear; lia.
rewrite subr_gt0 lt -(divide_sec et) //.
set z := dbl _ / _.
have [_ ->] : (floop 0 k (fun i (st : vec F * F) =>
       let: (v, du) := st in (upd v i (du / i.+1%:R), du * z)) (zerov, z)).2 = z ^+ k.+1 /\
   forall q, (floop 0 k (fun i (st : vec F * F) =>
       let: (v, du) := st in (upd v i (du / i.+1%:R), du * z)) (zerov, z)).1 q =
     if (q < k)%N then z ^+ q.+1 / q.+1%:R else 0; last by rewrite qk.
apply: (@floop_ind _ 0 k _ _ (fun j (st : vec F * F) => st.2 = z ^+ j.+1 /\
    forall q, st.1 q = if (q < j)%N then z ^+ q.+1 / q.+1%:R else 0)) => //.
move=> j [v du] _ /= [-> Hv]; split; first by rewrite [RHS]exprSr.
move=> p; rewrite /upd; have [->|ne] := eqVneq p j; first by rewrite ltnSn.
by rewrite Hv ltnS [in RHS]leq_eqVlt (negbTE ne).
Qed.

Lemma part_sum r i w v :
  fsum k (fun j => w * fsum k (fun q => v q * Mmat st k i q j) * pt (i.+1 - k + j)%N r) =
  fsum k (fun q => w * dmono r i q * v q).
Proof.
rewrite (eq_fsum (g := fun j => fsum k (fun q =>
   w * (pt (i.+1 - k + j)%N r * Mmat st k i q j) * v q))); last first.
  by move=> j _; rewrite fsum_mull fsum_mulr; apply: eq_fsum => q _; ring.
rewrite exchange_fsum; apply: eq_fsum => q _.
by rewrite /dmono fsum_mull fsum_mulr.
Qed.

Lemma rem_part t i (sg : F) res : is_segment k kps t i -> 0 <= thr -> dm_above dbl one thr k kps t ->
  exists2 v, (if (thr < getDurationAsDouble dbl one (ev_len (ev_of dbl k kps t i))) &&
                 (thr < ev_rel (ev_of dbl k kps t i)) then
      do v <- dm_computeLocalVi cs (dm_computeV k (ev_of dbl k kps t i)) i ;
      dm_combFirst (ds_segs cs) (i.+1 - k) k true
        (fun j => sg * getDurationAsDouble dbl one (ev_len (ev_of dbl k kps t i)) * v j) res
    else Ok res) = Ok v &
  forall r G, dm_antiderivative dbl one k kps r G ->
    v r = res r + sg * (G (sc t) - G (st i)).
Proof.
move=> sgm th0 ab; have [i1 i2 i3 i4] := sgm.
rewrite [ev_len _]/= [ev_rel _]/=.
have lt : kk i < kk i.+1 by apply: (kk_lt gd) => //; move: k0 i2; clear; lia.
rewrite /getDurationAsDouble /divideDurations -(sec_sub et) (divide_sec et) //.
have le2 : sc t <= st i.+1.
  by rewrite (sec_le et); case: i4 => [/ltW //|[_ ->]].
have [ti|ti] := ltP (kk i) t; last first.
  have e : t = kk i by apply/eqP; rewrite eq_le ti i3.
  rewrite e subrr mul0r [thr < 0]ltNge th0 andbF.
  by exists res => // r G _; rewrite subrr mulr0 addr0.
have [a1 a2] := ab i sgm ti; rewrite a1 a2 /=.
have [w -> Hw] := localViE (dm_computeV k (ev_of dbl k kps t i)) i1 i2.
rewrite okb.
have [|v -> Hv] := @combFirstE (i.+1 - k) (fun j => sg * (st i.+1 - st i) * w j) res.
  by rewrite subnK //; move: k0 i2; clear; lia.
exists v => // r G HG; rewrite Hv; congr (_ + _).
rewrite (eq_fsum (g := fun j => (sg * (st i.+1 - st i)) *
   fsum k (fun q => dm_computeV k (ev_of dbl k kps t i) q * Mmat st k i q j) *
   pt (i.+1 - k + j)%N r)); last by move=> j _; rewrite Hw.
have le1 : st i <= sc t by rewrite (sec_le et).
rewrite part_sum -(dpart_value HG i1 i2 le1 le2) fsum_mull.
apply: eq_fsum => q qk; by rewrite computeVE // -!mulrA.
Qed.

Lemma integral_orderedE t1 t2 : 0 <= thr ->
  kk (k - 1) <= t1 -> t1 <= t2 -> t2 <= kk (n - k) ->
  dm_above dbl one thr k kps t1 -> dm_above dbl one thr k kps t2 ->
  exists2 v, eu_evalIntegral_ordered dbl one thr cs t1 t2 = Ok v &
    forall r G, dm_antiderivative dbl one k kps r G -> v r = G (sc t2) - G (sc t1).
Proof.
move=> th0 h1 h12 h2 ab1 ab2.
rewrite /eu_evalIntegral_ordered; have [->|ne] := eqVneq t1 t2.
  by exists zerov => // r G _; rewrite subrr.
have [i1 s1] := segment_ex gd h1 (le_trans h12 h2).
have [i2 s2] := segment_ex gd (le_trans h1 h12) h2.
have [a1 b1 c1 d1] := s1; have [a2 b2 c2 d2] := s2.
rewrite (evaluatorE dbl gd s1) okb.
have e1 (v : vec F) : (fun j => - getDurationAsDouble dbl one (ev_len (ev_of dbl k kps t1 i1)) * v j) =
   (fun j => -1 * getDurationAsDouble dbl one (ev_len (ev_of dbl k kps t1 i1)) * v j).
  by rewrite mulN1r.
have [v1 v1E H1] := rem_part (-1) zerov s1 th0 ab1.
set I1 := (if _ then _ else _).
have -> : I1 = Ok v1.
  rewrite -v1E /I1; case: ifP => // _.
  by case: (dm_computeLocalVi _ _ _) => [v| |] //=; rewrite mulN1r.
rewrite okb (evaluatorE dbl gd s2) okb.
have i12 : (i1 <= i2)%N.
  rewrite leqNgt; apply/negP => lt21.
  have q : kk i2.+1 <= kk i1 by apply: (kk_le gd); [exact: lt21|move: k0 b1; clear; lia].
  case: d2 => [x2|[e2 _]]; last by move: lt21 b1 e2; clear; lia.
  have := le_lt_trans (le_trans q c1) (le_lt_trans h12 x2); by rewrite ltxx.
rewrite {1}/ub_unless [ev_ti _]/= i12.
set body := (X in oloop _ _ X).
have [v2 -> H2] : exists2 v2, oloop i1 i2 body v1 = Ok v2 &
    forall r G, dm_antiderivative dbl one k kps r G -> v2 r = G (st i2) - G (sc t1).
  apply: (oloop_ind (I := fun j (v : vec F) =>
    forall r G, dm_antiderivative dbl one k kps r G -> v r = G (st j) - G (sc t1))) => //.
    by move=> r G HG; rewrite (H1 r G HG) /zerov; ring.
  move=> j acc /andP[j1 j2] Hacc.
  have kj : (k <= j.+1)%N by move: a1 j1; clear; lia.
  have jN : (j + k < n)%N by move: b2 j2; clear; lia.
  have jS : (j.+1 < n)%N by move: k0 jN; clear; lia.
  rewrite /body; have [w -> Hw] := localViE (fun i => 1 / i.+1%:R) kj jN.
  rewrite okb (segLenE dbl gd jS) okb.
  have [|v vE Hv] := @combLast_addE j (fun i => getDurationAsDouble dbl one (kk j.+1 - kk j) * w i) acc kj.
    exact: ltnW.
  exists v => // r G HG; rewrite Hv (Hacc r G HG) /getDurationAsDouble /divideDurations -(sec_sub et).
  rewrite (eq_fsum (g := fun p => (st j.+1 - st j) *
     fsum k (fun q => 1 / q.+1%:R * Mmat st k j q p) * pt (j.+1 - k + p)%N r)); last first.
    by move=> p _; rewrite Hw.
  rewrite (part_sum r j (st j.+1 - st j) (fun q => 1 / q.+1%:R)).
  have pos := seg_pos et gd jS.
  have := dpart_value HG kj jN (ltW pos) (lexx _).
  rewrite divff ?subr_eq0 ?gt_eqF // => e.
  rewrite (eq_fsum (g := fun q => (st j.+1 - st j) * dmono r j q * (1 ^+ q.+1 / q.+1%:R))).
    by rewrite e; ring.
  by move=> q _; rewrite expr1n.
rewrite okb.
have [v v3E H3] := rem_part 1 v2 s2 th0 ab2.
set I3 := (if _ then _ else _).
have -> : I3 = Ok v.
  rewrite -v3E /I3; case: ifP => // _.
  by case: (dm_computeLocalVi _ _ _) => [w| |] //=; rewrite mul1r.
by exists v => // r G HG; rewrite (H3 r G HG) (H2 r G HG); ring.
Qed.

Lemma integralE t1 t2 : 0 <= thr ->
  kk (k - 1) <= t1 <= kk (n - k) -> kk (k - 1) <= t2 <= kk (n - k) ->
  dm_above dbl one thr k kps t1 -> dm_above dbl one thr k kps t2 ->
  exists2 v, eu_evalIntegral dbl one thr cs t1 t2 = Ok v &
    forall r G, dm_antiderivative dbl one k kps r G -> v r = G (sc t2) - G (sc t1).
Proof.
move=> th0 /andP[a1 b1] /andP[a2 b2] ab1 ab2; rewrite /eu_evalIntegral; case: ltP => lt.
  have [v -> Hv] := integral_orderedE th0 a2 (ltW lt) b1 ab2 ab1.
  rewrite okb; eexists; first by reflexivity.
  by move=> r G HG /=; rewrite (Hv r G HG) opprB.
exact: integral_orderedE.
Qed.

Lemma integral_out t1 t2 : t1 != t2 ->
  (t1 < kk (k - 1) \/ kk (n - k) < t1) \/ (t2 < kk (k - 1) \/ kk (n - k) < t2) ->
  eu_evalIntegral dbl one thr cs t1 t2 = Throw ExnSpline.
Proof.
have key a b : a < b -> a < kk (k - 1) \/ kk (n - k) < b ->
    eu_evalIntegral_ordered dbl one thr cs a b = Throw ExnSpline.
  move=> ab h; rewrite /eu_evalIntegral_ordered lt_eqF //.
  have [ha|ha] := ltP a (kk (k - 1)).
    by rewrite (evaluator_out dbl gd) //; left.
  case: h => [/lt_le_trans /(_ ha)|hb]; first by rewrite ltxx.
  have [ha2|ha2] := ltP (kk (n - k)) a.
    by rewrite (evaluator_out dbl gd) //; right.
  have [i s1] := segment_ex gd ha ha2; have [a1 b1 c1 d1] := s1.
  rewrite (evaluatorE dbl gd s1) okb.
  set I1 := (if _ then _ else _).
  have [v ->] : exists v, I1 = Ok v.
    rewrite /I1; case: ifP => _; last by eexists.
    have [w -> _] := localViE (dm_computeV k (ev_of dbl k kps a i)) a1 b1.
    rewrite okb; have [|v vE _] := @combFirstE (i.+1 - k)
      (fun j => - getDurationAsDouble dbl one (ev_len (ev_of dbl k kps a i)) * w j) zerov.
      by rewrite subnK //; move: k0 b1; clear; lia.
    by exists v.
  by rewrite okb (evaluator_out dbl gd) //; right.
move=> ne h; rewrite /eu_evalIntegral; case: ltgtP ne => // lt _.
  rewrite key //; case: h => -[x|x].
  - by left; exact: lt_trans lt x.
  - by right.
  - by left.
  - by right; exact: lt_trans x lt.
rewrite key //; case: h => -[x|x].
- by left.
- by right; exact: lt_trans x lt.
- by left; exact: lt_trans lt x.
- by right.
Qed.
End Integral.

Section IntegralMain.
Variables (F : realFieldType) (T : realDomainType) (dbl : T -> F) (one : T) (mf : manifold F).
Hypothesis D0 : (0 < mf_size mf)%N.

Lemma main_antiderivative k kps (s : dspline F T) : built dbl mf k kps s -> exact_time dbl one ->
  forall r, exists G, dm_antiderivative dbl one k kps r G.
Proof.
move=> bs et r; have [gd _] := builtE D0 bs.
exact: (dm_antiderivative_ex et gd).
Qed.

Lemma main_integral k kps (s : dspline F T) : built dbl mf k kps s -> exact_time dbl one ->
  forall thr t1 t2, 0 <= thr ->
  kp_knot kps (k - 1) <= t1 <= kp_knot kps (size kps - k) ->
  kp_knot kps (k - 1) <= t2 <= kp_knot kps (size kps - k) ->
  dm_above dbl one thr k kps t1 -> dm_above dbl one thr k kps t2 ->
  exists2 v, eu_evalIntegral dbl one thr s t1 t2 = Ok v &
    forall r G, dm_antiderivative dbl one k kps r G ->
      v r = G (sec dbl one t2) - G (sec dbl one t1).
Proof.
move=> bs et thr t1 t2; have [gd ->] := builtE D0 bs.
exact: (integralE et gd).
Qed.

Lemma main_integral_out k kps (s : dspline F T) : built dbl mf k kps s ->
  exact_time dbl one -> forall thr t1 t2, t1 != t2 ->
  (t1 < kp_knot kps (k - 1) \/ kp_knot kps (size kps - k) < t1) \/
  (t2 < kp_knot kps (k - 1) \/ kp_knot kps (size kps - k) < t2) ->
  eu_evalIntegral dbl one thr s t1 t2 = Throw ExnSpline.
Proof.
move=> bs et thr t1 t2; have [gd ->] := builtE D0 bs.
exact: (integral_out et gd).
Qed.
End IntegralMain.

(* integer times: the threshold drops nothing if it is below one tick and below the reciprocal
   of the number of ticks of each segment *)
Lemma main_above_ticks (F : realFieldType) (one : int) (thr : F) k
  (kps : seq (int_realDomainType * vec F)) (t : int_realDomainType) :
  (0 < k)%N -> 0 < one -> 0 <= thr -> thr * one%:~R < 1 ->
  (forall i, (i.+1 < size kps)%N -> thr * (kp_knot kps i.+1 - kp_knot kps i)%:~R < 1) ->
  dm_above (fun x : int => x%:~R : F) one thr k kps t.
Proof.
move=> k0 o0 h0 h1 hl i [ki iN _ hi] lt.
have o0F : 0 < one%:~R :> F by rewrite ltr0z.
have i1 : (i.+1 < size kps)%N by apply: leq_ltn_trans iN; rewrite -addn1 leq_add2l.
have lk : kp_knot kps i < kp_knot kps i.+1.
  by case: hi => [h|[_ <-//]]; exact: lt_trans lt h.
have len1 : 1 <= (kp_knot kps i.+1 - kp_knot kps i)%:~R :> F.
  by rewrite -[1]/(1%:~R) ler_int -gtz0_ge1 subr_gt0.
have pos1 : 1 <= (t - kp_knot kps i)%:~R :> F.
  by rewrite -[1]/(1%:~R) ler_int -gtz0_ge1 subr_gt0.
have l0 : 0 < (kp_knot kps i.+1 - kp_knot kps i)%:~R :> F by apply: lt_le_trans ltr01 len1.
rewrite /sec -!mulrBl -!rmorphB; split.
  by rewrite ltr_pdivl_mulr //; exact: lt_le_trans h1 len1.
rewrite invfM invrK mulrACA mulVf ?mulr1 ?gt_eqF //.
by rewrite ltr_pdivl_mulr //; exact: lt_le_trans (hl _ i1) pos1.
Qed.
