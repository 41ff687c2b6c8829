(* Proofs about quaternion splines. *)
From mathcomp Require Import all_ssreflect all_algebra.
From mathcomp.algebra_tactics Require Import ring.
From mathcomp.zify Require Import zify.
From Verif Require Import Prelude CoxDeBoor DMModel DMSpec DMProofs DMConstructProofs
  DMAccessProofs DMEvalProofs DMCurveProofs DMMainProofs QuatModel QuatAlg QuatSpec.
Set Implicit Arguments.
Unset Strict Implicit.
Unset Printing Implicit Defensive.
Import GRing.Theory Num.Theory Order.Theory.
Local Open Scope ring_scope.

Lemma factorialE n : factorial n = n`!.
Proof.
rewrite /factorial; case: eqP => [->//|_].
suff h m : (m <= n)%N -> (floop 0 m (fun j ret => ret * (n - j)) 1 = n ^_ m)%N.
  by rewrite h // ffactnn.
elim: m => [|m IH] mn; first by rewrite floop_nil // ffactn0.
by rewrite floopSr // IH ?(ltnW mn) // ffactnSr.
Qed.

Section Jets.
Variable F : comRingType.
Notation H := (quat F).

Lemma size_rot_list (b : nat -> F) Phi r n : size (rot_list b Phi r n) = n.+1.
Proof. by elim: n => //= n IH; rewrite size_rcons IH. Qed.
Lemma nth_rot_list (b : nat -> F) Phi r n k : (k <= n)%N ->
  nth 0 (rot_list b Phi r n) k = rot_jet b Phi r k.
Proof.
elim: n => [|n IH]; first by rewrite leqn0 => /eqP ->.
rewrite leq_eqVlt => /orP[/eqP -> //|kn].
by rewrite [rot_list _ _ _ _]/= nth_rcons size_rot_list kn IH.
Qed.
Lemma rot_jet0 (b : nat -> F) Phi r : rot_jet b Phi r 0%N = r. Proof. by []. Qed.
Lemma rot_jetS (b : nat -> F) Phi r n : rot_jet b Phi r n.+1 =
  \sum_(k < n.+1) (b k.+1 *+ 'C(n, k)) *: (Phi * rot_jet b Phi r (n - k)%N).
Proof.
rewrite /rot_jet [rot_list _ _ _ _]/= nth_rcons size_rot_list ltnn eqxx.
apply: eq_bigr => k _; congr (_ *: (_ * _)).
by apply: nth_rot_list; rewrite leq_subr.
Qed.

Lemma rot_jet1 (b : nat -> F) Phi r : rot_jet b Phi r 1%N = b 1%N *: (Phi * r).
Proof. by rewrite rot_jetS big_ord1 /= bin0 mulr1n. Qed.
Lemma rot_jet2 (b : nat -> F) Phi r : GRing.comm Phi r ->
  rot_jet b Phi r 2%N = Phi * (r * ((b 1%N * b 1%N) *: Phi + b 2%N *: 1)).
Proof.
move=> c; rewrite rot_jetS !big_ord_recl big_ord0 /= /bump /= subn0 subnn bin0 binn !mulr1n.
rewrite rot_jet1 rot_jet0 addr0 mulrDr mulrDr -!scalerAr mulr1 scalerA.
by rewrite -[r * Phi]c.
Qed.
Lemma rot_jet3 (b : nat -> F) Phi r : GRing.comm Phi r ->
  rot_jet b Phi r 3%N = Phi * (r * ((b 1%N *: Phi) * ((b 1%N * b 1%N) *: Phi + b 2%N *: 1) +
     ((2%:R * b 1%N * b 2%N) *: Phi + b 3%N *: 1))).
Proof.
move=> c; rewrite rot_jetS !big_ord_recl big_ord0 /= /bump /= !addn0 !add1n.
rewrite subn0 subnn (_ : (2 - 1 = 1)%N) // bin0 binn (_ : 'C(2, 1) = 2%N) // !mulr1n.
have c1 : r * Phi = Phi * r by rewrite c.
have c2 x : r * (Phi * x) = Phi * (r * x) by rewrite !mulrA c1.
rewrite (rot_jet2 _ c) rot_jet1 rot_jet0 addr0 !mulrDr -!scalerAr -!scalerAl.
rewrite ?mulrDr -?scalerAr !mulr1 !scalerA !c2 c1 !scalerDr !scalerA.
congr (_ *: _ + _ *: _ + (_ *: _ + _)); ring.
Qed.
End Jets.

(* ------------------------------------------------------------------ Leibniz *)
Section Product.
Variable F : comRingType.
Notation H := (quat F).

Lemma jmul_const (q : H) f n : jmul (jconst q) f n = q * f n.
Proof.
rewrite /jmul big_ord_recl /= subn0 bin0 mulr1n big1 ?addr0 // => k _.
by rewrite /jconst /= mul0r mul0rn.
Qed.
Lemma jmul0 (f g : jet F) : jmul f g 0%N = f 0%N * g 0%N.
Proof. by rewrite /jmul big_ord1 /= bin0 mulr1n. Qed.
Lemma jmul1 (f g : jet F) : jmul f g 1%N = f 0%N * g 1%N + f 1%N * g 0%N.
Proof. by rewrite /jmul big_ord_recl big_ord1 /= bin0 binn !mulr1n. Qed.

(* products in the other direction *)
Fixpoint jleft (J : nat -> jet F) (m : nat) : jet F :=
  if m is m'.+1 then jmul (jleft J m') (J m) else jconst 1.
Lemma jleftS J m : jleft J m.+1 = jmul (jleft J m) (J m.+1). Proof. by []. Qed.
Lemma jleft_prod J rest i n : (n <= 1)%N ->
  jmul (jleft J i) (jprod J i.+1 rest) n = jleft J (i + rest.+1)%N n.
Proof.
move=> n1; elim: rest i => [|rest IH] i; first by rewrite addn1.
rewrite addnS -addSn -IH [jprod _ _ _.+1]/= [jleft J i.+1]/=.
by case: n n1 IH => [|[|//]] _ _; rewrite !(jmul0, jmul1) ?(mulrDr, mulrDl) !mulrA ?addrA.
Qed.
Lemma jcurve_left q0 J m n : (n <= 1)%N -> jcurve q0 J m n = q0 * jleft J m n.
Proof.
case: m => [|m] n1; first by rewrite /jcurve /= /jconst; case: eqP; rewrite ?mulr1 ?mulr0.
by rewrite /jcurve jmul_const; have <- := jleft_prod J m 0%N n1; rewrite jmul_const mul1r.
Qed.

End Product.

(* the integer divisions are exact *)
Lemma kf_div m d e : (e <= d)%N -> (m * d`! %/ e`! = (m * 'C(d, e)) * (d - e)`!)%N.
Proof.
move=> ed; rewrite -(bin_fact ed) [(e`! * _)%N]mulnC !mulnA mulnK ?fact_gt0 //.
Qed.

Section ProductRest.
Variable F : realFieldType.
Notation H := (quat F).

Lemma productRestE (riD : nat -> nat -> outcome H) J rest i d m :
  (forall j e, (i <= j <= i + rest)%N -> (e <= d)%N -> riD e j = Ok (J j e)) ->
  productRest riD rest d i (m * d`!) = Ok (m%:R *: jprod J i rest d).
Proof.
elim: rest i d m => [|rest IH] i d m hJ /=.
  by rewrite hJ ?addn0 ?leqnn //= factorialE mulnK ?fact_gt0.
have hi e : (e <= d)%N -> riD e i = Ok (J i e) by move=> ed; rewrite hJ // leqnn leq_addr.
have hp e m' : (e <= d)%N ->
    productRest riD rest (d - e) i.+1 (m' * (d - e)`!) = Ok (m'%:R *: jprod J i.+1 rest (d - e)%N).
  move=> ed; apply: IH => j e' /andP[h1 h2] h3; apply: hJ.
    by rewrite (ltnW h1) addnS -addSn.
  by apply: leq_trans h3 (leq_subr _ _).
rewrite hi //=; have := hp 0%N m (leq0n _); rewrite subn0 => -> /=.
have inv : forall h, (0 < h)%N -> (h <= d.+1)%N ->
  oloop 1 h (fun e result => do r <- riD e i ;
      do p <- productRest riD rest (d - e) i.+1 (m * d`! %/ factorial e)%N ;
      Ok (qadd result (qplus r p))) (qplus (J i 0%N) (m%:R *: jprod J i.+1 rest d)) =
  Ok (m%:R *: \sum_(k < h) (J i k * jprod J i.+1 rest (d - k)%N) *+ 'C(d, k)); last exact: inv.
case=> // h _; elim: h => [|h IHh] hd.
  by rewrite oloop_nil // big_ord1 /= subn0 bin0 mulr1n qplusE scalerAr.
rewrite oloopSr // IHh ?(ltnW hd) //= hi //= factorialE.
rewrite kf_div // hp // [obind _ _]/= [in RHS]big_ord_recr scalerDr qaddE qplusE -scalerAr.
by rewrite natrM -scalerA [('C(d, h.+1))%:R *: _]scaler_nat.
Qed.

Lemma productRest_throw (riD : nat -> nat -> outcome H) J rest i d kf e :
  (forall j, (i <= j <= i + rest)%N -> riD 0%N j = Ok (J j)) ->
  (forall j, (i <= j <= i + rest)%N -> riD d j = Throw e) ->
  productRest riD rest d i kf = Throw e.
Proof.
elim: rest i => [|rest IH] i h0 hd /=; first by rewrite hd // addn0 leqnn.
rewrite h0 ?leqnn ?leq_addr //= IH // => j /andP[h1 h2]; [apply: h0|apply: hd];
  by rewrite (ltnW h1) addnS -addSn.
Qed.
End ProductRest.

(* ------------------------------------------------------------------ the spline *)
Section Spline.
Variables (F : realFieldType) (T : realDomainType).
Variables (dbl : T -> F) (one : T).
Hypothesis et : exact_time dbl one.
Variables (expq : v3 F -> quat F) (logq : quat F -> v3 F) (norm : quat F -> F) (ieps : F).
Hypothesis ex : exp_like expq.
Notation mf := (uq_manifold expq logq norm ieps).

Lemma mulVZ a (v : v3 F) : mulV (v3scale a v) = a *: mulV v.
Proof.
rewrite -qscaleE /mulV /qscale /qmk /v3scale /= mulr0; congr Quat; exact: mulrCA.
Qed.
Lemma expq0 v : expq (v3scale 0 v) = 1.
Proof. by case: ex => _ h _; rewrite /v3scale !mul0r h. Qed.
Lemma exp_comm b v : GRing.comm (mulV v) (expq (v3scale b v)).
Proof.
have [->|b0] := eqVneq b 0; first by rewrite expq0; apply: commr1.
have [_ _ /(_ (v3scale b v))] := ex; rewrite mulVZ !qplusE -scalerAl -scalerAr => h.
by apply: (scalerI b0).
Qed.
Lemma exp_unit v : qnorm2 (expq v) = 1. Proof. by case: ex. Qed.

(* data of the relevant segment *)
Variables (k : nat) (kps : seq (T * vec F)) (t : T) (i : nat) (nc : bool) (np : nat).
Hypotheses (gd : good k kps) (sg : is_segment k kps t i) (npk : (np <= k.+1)%N).
Notation cs := (canon dbl k kps).
Notation ev := (ev_of dbl k kps t i).
Notation W := (cum_weight dbl one k kps t i).
Notation P := (fun j => quat_of (nth kp0 kps (i.+1 - k + j)).2).
Notation phi := (fun j => logq (quatInv (P j.-1) * P j)).
Notation J := (fun j => rot_jet (fun n => W n j) (mulV (phi j)) (expq (v3scale (W 0%N j) (phi j)))).

Let k0 : (0 < k)%N. Proof. by case/and3P: gd. Qed.

Lemma cumBiE d : exists2 b, dm_getLocalCumulativeBi dbl one nc np cs ev d = Ok b &
  forall j, (0 < j < k)%N -> b j = W d j.
Proof.
have [b hb Hb] := getLocalCumE et gd d nc sg npk; exists b => // j /andP[j0 jk].
by rewrite -cum_weightE ?(ltnW jk) // Hb // gtn_eqF.
Qed.

Lemma cache_cvE : exists2 c, calculationCache dbl one expq logq nc np cs ev = Ok c &
  [/\ forall j, (j < k)%N -> cc_cv c j = P j,
      forall j, (0 < j < k)%N -> getLocalPhiVector c j = phi j
    & forall j, (0 < j < k)%N -> getLocalRiPoint c j = J j 0%N].
Proof.
have [i1 i2 i3 i4] := sg; rewrite /calculationCache [ev_first _]/= size_canon /ub_unless.
have -> : (i.+1 - k < size kps)%N by move: i2 k0; clear; lia.
set p0 := quat_of _; have p0E : p0 = P 0%N.
  by rewrite /p0 canon_pt ?addn0 //; move: i2 k0; clear; lia.
have [b -> Hb] := cumBiE 0.
set body := (X in oloop 0 _ X).
have nE : getNumVectors cs = (k - 1)%N by [].
rewrite nE.
have [st' -> [h1 h2 h3 h4]] : exists2 st', oloop 0 (k - 1) body
    (CalcCache (fun _ => V3 0 0 0) (fun _ => qzero F) (upd (fun _ => qzero F) 0 p0), p0) = Ok st' &
   [/\ forall j, (j < (k - 1).+1)%N -> cc_cv st'.1 j = P j,
    forall j, (j < k - 1)%N -> cc_phi st'.1 j = phi j.+1,
    forall j, (j < k - 1)%N -> cc_Ri st'.1 j = J j.+1 0%N & st'.2 = P (k - 1)%N].
  apply: (oloop_ind (I := fun q (st : calc_cache F * quat F) =>
   [/\ forall j, (j < q.+1)%N -> cc_cv st.1 j = P j,
    forall j, (j < q)%N -> cc_phi st.1 j = phi j.+1,
    forall j, (j < q)%N -> cc_Ri st.1 j = J j.+1 0%N & st.2 = P q])) => //.
    by split=> // -[|//] _ /=.
  move=> q [c l] /= qk [e1 e2 e3 e4]; rewrite /body.
  have -> : (i.+1 - k + q.+1 < size kps)%N by move: i2 qk i1; clear; lia.
  rewrite canon_pt; last by move: i2 qk i1; clear; lia.
  rewrite Hb; last by move: qk; clear; lia.
  eexists; first by reflexivity.
  rewrite e4 /=; split=> //.
  - move=> j; rewrite ltnS leq_eqVlt /upd => /orP[/eqP ->|jq]; first by rewrite eqxx.
    by rewrite ltn_eqF // e1.
  - move=> j; rewrite ltnS leq_eqVlt /upd => /orP[/eqP ->|jq]; first by rewrite eqxx.
    by rewrite ltn_eqF // e2.
  - move=> j; rewrite ltnS leq_eqVlt /upd => /orP[/eqP ->|jq]; first by rewrite eqxx.
    by rewrite ltn_eqF // e3.
case: st' h1 h2 h3 h4 => c l /= h1 h2 h3 _; exists c => //; split=> j; first by move=> jk; apply: h1; move: jk; clear; lia.
  move=> /andP[j0 jk].
  by rewrite /getLocalPhiVector h2 subn1 ?prednK //; move: j0 jk; clear; lia.
move=> /andP[j0 jk].
by rewrite /getLocalRiPoint h3 subn1 ?prednK //; move: j0 jk; clear; lia.
Qed.
Lemma cacheE : exists2 c, calculationCache dbl one expq logq nc np cs ev = Ok c &
  [/\ getLocalStartPoint c = P 0%N,
      forall j, (0 < j < k)%N -> getLocalPhiVector c j = phi j
    & forall j, (0 < j < k)%N -> getLocalRiPoint c j = J j 0%N].
Proof. by have [c e [h1 h2 h3]] := cache_cvE; exists c => //; split=> //; apply: h1. Qed.

Lemma evalRiDE c d j : (d <= 3)%N -> (0 < j < k)%N -> getLocalPhiVector c j = phi j ->
  getLocalRiPoint c j = J j 0%N -> evalRiD dbl one nc np cs ev c d j = Ok (J j d).
Proof.
move=> d3 jk ephi eR; have [b1 e1 H1] := cumBiE 1; have [b2 e2 H2] := cumBiE 2.
have [b3 e3 H3] := cumBiE 3; have cm := exp_comm (W 0%N j) (phi j).
rewrite /evalRiD ephi eR; case: d d3 => [|[|[|[|//]]]] _.
- by [].
- by rewrite e1 /obind H1 // qplusE rot_jet1 mulVZ -scalerAl.
- by rewrite e1 e2 /obind H1 // H2 // !(qplusE, qaddE, qscaleE) !qscalar rot_jet2.
- by rewrite e1 e2 e3 /obind H1 // H2 // H3 // !(qplusE, qaddE, qscaleE) !qscalar rot_jet3.
Qed.

Lemma evalRiD_throw c d j : (3 < d)%N -> evalRiD dbl one nc np cs ev c d j = Throw ExnSpline.
Proof. by case: d => [|[|[|[|d]]]]. Qed.

Lemma lie_quat m : quat_of (lie_curve mf (W 0%N) (fun j => (nth kp0 kps (i.+1 - k + j)).2) m) =
  P 0%N * jleft J m 0%N.
Proof.
elim: m => [|m IH]; first by rewrite /= /jconst mulr1.
rewrite [jleft _ _]/= jmul0 mulrA -IH [lie_curve _ _ _ _]/=; case: eqP => w0.
  by rewrite /rot_jet /= w0 expq0 mulr1.
rewrite quat_ofK /uq_exp qplusE; congr (_ * _).
rewrite rot_jet0; congr expq.
rewrite /v3_of /v3scale /vec_of3; congr V3; exact: mulrC.
Qed.

Lemma eval0E : uq_evalD dbl one expq logq ieps norm nc np cs ev 0 = Ok (jcurve (P 0%N) J (k - 1) 0%N).
Proof. by rewrite /uq_evalD evalGeneric_lie //= jcurve_left // lie_quat. Qed.

Lemma jleft_unit m : qnorm2 (jleft J m 0%N) = 1.
Proof.
elim: m => [|m IH]; first exact: qnorm2_1.
by rewrite [jleft _ _]/= jmul0 qnorm2M IH mul1r; apply: exp_unit.
Qed.

Lemma eval0_unit : qnorm2 (P 0%N) = 1 -> exists2 q,
  uq_evalD dbl one expq logq ieps norm nc np cs ev 0 = Ok q & qnorm2 q = 1.
Proof.
move=> h; rewrite eval0E; eexists; first by reflexivity.
by rewrite jcurve_left // qnorm2M h jleft_unit mulr1.
Qed.

Lemma eval1E : uq_evalD dbl one expq logq ieps norm nc np cs ev 1 = Ok (jcurve (P 0%N) J (k - 1) 1%N).
Proof.
rewrite /uq_evalD /evalD1Special; have [c -> [c0 cp cR]] := cacheE; rewrite [obind (Ok c) _]/obind.
set body := (X in oloop 1 _ X).
have [st' -> [h1 h2]] : exists2 st', oloop 1 (ds_order cs) body (quatIdentity F, qzero F) = Ok st' &
    st'.1 = jleft J (k - 1) 0%N /\ st'.2 * st'.1 = jleft J (k - 1) 1%N.
  apply: (oloop_ind (I := fun q (st : quat F * quat F) =>
    st.1 = jleft J (q - 1) 0%N /\ st.2 * st.1 = jleft J (q - 1) 1%N)) => //.
    by rewrite subnn /= qzeroE mul0r.
  move=> q [A S] qk [hA hS]; rewrite /body {body}.
  have r1 := evalRiDE (d := 1) isT qk (cp _ qk) (cR _ qk).
  have r0 := evalRiDE (d := 0) isT qk (cp _ qk) (cR _ qk).
  rewrite r1 r0.
  rewrite [obind _ _]/= !(qplusE, qaddE); eexists; first by reflexivity.
  have -> : (q.+1 - 1 = (q - 1).+1)%N by move: qk; clear; lia.
  rewrite jleftS jmul0 jmul1; have -> : ((q - 1).+1 = q)%N by move: qk; clear; lia.
  have uq : qnorm2 (J q 0%N) = 1 by exact: exp_unit.
  move: uq hA hS (jleft_unit (q - 1)); move: (J q) (jleft J (q - 1)) => f g uf /= -> hS ug.
  split=> //; rewrite mulrDl -mulrA qinv_mul qnorm2M uf ug mulr1 scale1r mulr1.
  by rewrite mulrA hS addrC.
case: st' h1 h2 => A S /= h1 h2; rewrite c0 !qplusE h2.
by rewrite jcurve_left.
Qed.

Lemma evalDE d : (2 <= k)%N -> (d <= 3)%N ->
  uq_evalD dbl one expq logq ieps norm nc np cs ev d = Ok (jcurve (P 0%N) J (k - 1) d).
Proof.
move=> k2 d3; case: d d3 => [|[|d']] d3; [exact: eval0E|exact: eval1E|].
rewrite /uq_evalD; move: (d'.+2) d3 => d d3; rewrite /evalDRecursive.
have [c -> [c0 cp cR]] := cacheE; rewrite [obind (Ok c) _]/obind /ub_unless.
have -> : getNumVectors cs = (k - 2).+1 by rewrite /getNumVectors /=; move: k2; clear; lia.
rewrite [(0 < _)%N]/= subn1 [_.-1]/= factorialE -[d`!]mul1n (productRestE (J := J)); last first.
  move=> j e jr ed; have jk : (0 < j < k)%N by move: jr k2; clear; lia.
  by rewrite evalRiDE ?cp ?cR //; apply: leq_trans ed d3.
rewrite /= scale1r c0 qplusE.
have -> : (k - 1 = (k - 2).+1)%N by move: k2; clear; lia.
by rewrite /jcurve jmul_const.
Qed.

Lemma evalD_throw d : (2 <= k)%N -> (3 < d)%N ->
  uq_evalD dbl one expq logq ieps norm nc np cs ev d = Throw ExnSpline.
Proof.
move=> k2; case: d => [//|[//|d']]; rewrite /uq_evalD; move: (d'.+2) => d d3.
rewrite /evalDRecursive; have [c -> [c0 cp cR]] := cacheE; rewrite [obind (Ok c) _]/obind /ub_unless.
have -> : (0 < getNumVectors cs)%N by rewrite /getNumVectors /=; move: k2; clear; lia.
rewrite (@productRest_throw _ _ (fun j => J j 0%N) _ _ _ _ ExnSpline) // => j jr.
  have jk : (0 < j < k)%N by move: jr k2; rewrite /getNumVectors /=; clear; lia.
  by rewrite evalRiDE ?cp ?cR.
exact: evalRiD_throw.
Qed.

Lemma evalD_ub d : k = 1%N -> (1 < d)%N -> uq_evalD dbl one expq logq ieps norm nc np cs ev d = UB.
Proof.
move=> k1; case: d => [//|[//|d]] _; rewrite /uq_evalD /evalDRecursive.
have [c -> _] := cacheE; rewrite [obind (Ok c) _]/obind /ub_unless.
by have -> : (0 < getNumVectors cs)%N = false by rewrite /getNumVectors /= k1.
Qed.
End Spline.

(* ------------------------------------------------------------------ derivations *)
Lemma leibniz (X Y Z : zmodType) (m : X -> Y -> Z) (dX : X -> X) (dY : Y -> Y)
  (dZ : {additive Z -> Z}) : (forall x y, dZ (m x y) = m (dX x) y + m x (dY y)) ->
  forall n x y, ssrnat.iter n dZ (m x y) =
    \sum_(k < n.+1) m (ssrnat.iter k dX x) (ssrnat.iter (n - k)%N dY y) *+ 'C(n, k).
Proof.
move=> dm n x y; elim: n => [|n IH]; first by rewrite big_ord1 /= bin0 mulr1n.
rewrite [LHS]/= IH raddf_sum.
set tt := fun k => m (ssrnat.iter k dX x) (ssrnat.iter (n.+1 - k) dY y).
have -> : \sum_(k < n.+1) dZ (m (ssrnat.iter k dX x) (ssrnat.iter (n - k) dY y) *+ 'C(n, k)) =
   \sum_(k < n.+1) tt k.+1 *+ 'C(n, k) + \sum_(k < n.+1) tt k *+ 'C(n, k).
  rewrite -big_split /=; apply: eq_bigr => k _; rewrite raddfMn dm mulrnDl /tt subSS.
  by rewrite subSn ?leq_ord.
rewrite [RHS]big_ord_recl bin0 mulr1n -/(tt 0%N).
have -> : \sum_(k < n.+1) m (ssrnat.iter (lift ord0 k) dX x) (ssrnat.iter (n.+1 - lift ord0 k) dY y)
    *+ 'C(n.+1, lift ord0 k) = \sum_(k < n.+1) tt k.+1 *+ 'C(n, k.+1) +
                               \sum_(k < n.+1) tt k.+1 *+ 'C(n, k).
  by rewrite -big_split /=; apply: eq_bigr => k _; rewrite /bump leq0n add1n binS mulrnDr.
rewrite addrA addrC; congr (_ + _).
have -> : tt 0%N = tt 0%N *+ 'C(n, 0) by rewrite bin0.
rewrite -(big_ord_recl n.+1 (fun k : 'I_n.+2 => tt k *+ 'C(n, k))).
by rewrite [RHS]big_ord_recr [in RHS]/= (@bin_small n n.+1) // mulr0n addr0.
Qed.

Section Deriv.
Variables (A F : comRingType) (D : A -> A) (ev : {rmorphism A -> F}).
Hypothesis dD : derivation D.
Let Dadd : additive D.
Proof.
case: dD => a _ x y; have D0 : D 0 = 0.
  by have := a 0 0; rewrite addr0 => /eqP; rewrite -subr_eq subrr eq_sym => /eqP.
have DN z : D (- z) = - D z by apply/eqP; rewrite -addr_eq0 -a addNr D0.
by rewrite a DN.
Qed.
Canonical D_additive := Additive Dadd.
Notation qD := (qmap D).
Let qDadd : additive qD.
Proof.
move=> p q; rewrite qmapD; congr (_ + _).
by case: q => a b c d; rewrite /qmap /= !raddfN.
Qed.
Canonical qD_additive := Additive qDadd.

Lemma qD_mul (p q : quat A) : qD (p * q) = qD p * q + p * qD q.
Proof.
case: dD => _ dM; case: p => ? ? ? ?; case: q => ? ? ? ?; rewrite -!qplusE -!qaddE.
rewrite /qmap /qplus /qadd /qmk /= /dot3 /=.
by congr Quat; rewrite !(raddfD, raddfN) /= !dM; ring.
Qed.
Lemma qD_scale a (q : quat A) : qD (a *: q) = D a *: q + a *: qD q.
Proof.
case: dD => _ dM; case: q => ? ? ? ?; rewrite -!qscaleE -!qaddE /qmap /qscale /qadd /=.
by congr Quat; rewrite dM.
Qed.
Lemma qD_inv (q : quat A) : qD (quatInv q) = quatInv (qD q).
Proof. by case: q => ? ? ? ?; rewrite /qmap /quatInv /= !raddfN. Qed.
Lemma qD_1 : qD 1 = 0.
Proof.
have := qD_mul 1 1; rewrite !mulr1 mul1r => /eqP.
by rewrite -subr_eq subrr eq_sym => /eqP.
Qed.

Notation jt := (jet_of D ev).
Lemma jet_mul p q n : jt (p * q) n = jmul (jt p) (jt q) n.
Proof.
rewrite /jet_of (leibniz (dZ := qD_additive) (m := *%R) qD_mul) qmap_sum.
by apply: eq_bigr => k _; rewrite qmapMn qmapM.
Qed.
Lemma iter_qD0 n : ssrnat.iter n qD 0 = 0.
Proof. by elim: n => //= n ->; apply: (raddf0 qD_additive). Qed.
Lemma jet_const q n : qD q = 0 -> jt q n = jconst (qmap ev q) n.
Proof.
move=> h; rewrite /jet_of /jconst; case: n => [//|n].
by rewrite iterSr h iter_qD0 qmap0.
Qed.
Lemma jet_conj q n : jt (quatInv q) n = quatInv (jt q n).
Proof.
rewrite /jet_of; have -> : ssrnat.iter n qD (quatInv q) = quatInv (ssrnat.iter n qD q).
  by elim: n => //= n ->; rewrite qD_inv.
by case: (ssrnat.iter n qD q) => ? ? ? ?; rewrite /qmap /quatInv /= !rmorphN.
Qed.
Lemma jet_deriv q n : jt (qD q) n = jt q n.+1.
Proof. by rewrite /jet_of iterSr. Qed.

Lemma eq_jmul (f f' g g' : jet F) n : (forall e, (e <= n)%N -> f e = f' e) ->
  (forall e, (e <= n)%N -> g e = g' e) -> jmul f g n = jmul f' g' n.
Proof.
move=> hf hg; apply: eq_bigr => k _; rewrite hf ?hg ?leq_subr //.
by rewrite -ltnS ltn_ord.
Qed.

Lemma jet_rot (b : A) Phi R n : qD Phi = 0 -> qD R = D b *: (Phi * R) ->
  jt R n = rot_jet (fun e => ev (ssrnat.iter e D b)) (qmap ev Phi) (qmap ev R) n.
Proof.
move=> hP hR; elim/ltn_ind: n => -[//|n] IH.
rewrite rot_jetS -jet_deriv hR /jet_of.
rewrite (leibniz (dZ := qD_additive) (m := *:%R) qD_scale) qmap_sum.
apply: eq_bigr => k _; rewrite qmapMn qmapZ -iterSr scalerMnl; congr (_ *: _).
rewrite -[qmap ev (ssrnat.iter _ _ _)]/(jt (Phi * R) (n - k)%N) jet_mul.
rewrite (eq_jmul (f' := jconst (qmap ev Phi)) (g' := jt R)) //; last first.
  by move=> e _; apply: jet_const.
by rewrite jmul_const IH // ltnS leq_subr.
Qed.

Lemma jet_prod (R : nat -> quat A) rest i n :
  jt (\prod_(i <= j < i + rest.+1) R j) n = jprod (fun j => jt (R j)) i rest n.
Proof.
elim: rest i n => [|rest IH] i n; first by rewrite addn1 big_nat1.
rewrite big_ltn; last by rewrite addnS ltnS leq_addr.
by rewrite jet_mul [jprod _ _ _]/= addnS -addSn; apply: eq_jmul => // e _; apply: IH.
Qed.

Lemma eq_jprod (J J' : nat -> jet F) i rest n : (forall j e, J j e = J' j e) ->
  jprod J i rest n = jprod J' i rest n.
Proof.
move=> h; elim: rest i n => [|rest IH] i n /=; first exact: h.
by apply: eq_jmul => e _; [apply: h|apply: IH].
Qed.

Lemma jet_curve q0 (b : nat -> A) (Phi R : nat -> quat A) m n :
  qD q0 = 0 -> (forall j, qD (Phi j) = 0) -> (forall j, qD (R j) = D (b j) *: (Phi j * R j)) ->
  jt (q0 * \prod_(1 <= j < m.+1) R j) n =
  jcurve (qmap ev q0) (fun j => rot_jet (fun e => ev (ssrnat.iter e D (b j))) (qmap ev (Phi j))
                                  (qmap ev (R j))) m n.
Proof.
move=> h0 hP hR; case: m => [|m]; first by rewrite big_geq // mulr1 jet_const.
rewrite jet_mul /jcurve; apply: eq_jmul => e _; first by rewrite jet_const.
rewrite -[m.+2]add1n jet_prod; apply: eq_jprod => j e'; exact: jet_rot.
Qed.

Lemma jet_omega q n :
  v3scale 2%:R (qeps (jt (qD q * quatInv q) n)) = omega (jt q) n.
Proof.
rewrite /omega jet_mul; congr (v3scale _ (qeps _)); apply: eq_jmul => e _.
  exact: jet_deriv.
exact: jet_conj.
Qed.
End Deriv.

(* the recursion on any curves *)
Lemma productRest_deriv (A : comRingType) (F : realFieldType) (D : A -> A)
  (ev : {rmorphism A -> F}) (R : nat -> quat A) (riD : nat -> nat -> outcome (quat F)) rest d :
  derivation D ->
  (forall e j, (e <= d)%N -> (0 < j <= rest.+1)%N -> riD e j = Ok (jet_of D ev (R j) e)) ->
  productRest riD rest d 1 (factorial d) = Ok (jet_of D ev (\prod_(1 <= j < rest.+2) R j) d).
Proof.
move=> dD h; rewrite factorialE -[d`!]mul1n (productRestE (J := fun j => jet_of D ev (R j))).
  by rewrite scale1r -[rest.+2]add1n jet_prod.
by move=> j e jr ed; apply: h.
Qed.

Lemma kf_exact d ds : (sumn ds <= d)%N ->
  (foldl (fun kf e => kf %/ factorial e) (factorial d) ds * \prod_(e <- ds) e`!)%N = d`!.
Proof.
rewrite factorialE => h.
suff: forall m d, (sumn ds <= d)%N -> exists m',
   (foldl (fun kf e => kf %/ factorial e) (m * d`!) ds = m' * (d - sumn ds)`!)%N /\
   (m' * (d - sumn ds)`! * \prod_(e <- ds) e`! = m * d`!)%N.
  by case/(_ 1%N d h) => m'; rewrite !mul1n => -[-> ->].
elim: ds {d h} => [|e ds IH] m d /= h.
  by exists m; rewrite subn0 big_nil muln1.
have ed : (e <= d)%N by apply: leq_trans (leq_addr _ _) h.
rewrite factorialE kf_div //; case: (IH (m * 'C(d, e))%N (d - e)%N); first by rewrite leq_subRL.
move=> m' [e1 e2]; exists m'; rewrite -subnDA in e1 e2; split=> //.
rewrite big_cons mulnCA e2 -[in RHS](bin_fact ed) -!mulnA mulnCA; congr (_ * _)%N.
exact: mulnCA.
Qed.

(* angular derivatives *)
Section Angular.
Variables (F : realFieldType) (T : realDomainType).
Variables (dbl : T -> F) (one : T).
Variables (expq : v3 F -> quat F) (logq : quat F -> v3 F) (norm : quat F -> F) (ieps : F).
Variables (nc : bool) (np : nat) (s : dspline F T) (ev : evaluator F T).

Lemma angularE (q : jet F) d : (0 < d <= 3)%N ->
  (forall e, (e <= d)%N -> uq_evalD dbl one expq logq ieps norm nc np s ev e = Ok (q e)) ->
  evalAngularDerivative dbl one expq logq ieps norm nc np s ev d = Ok (omega q d.-1).
Proof.
move=> d3 h; rewrite /evalAngularDerivative (h d) // (h 0%N) // /obind /omega /jderiv /jconj.
case: d d3 h => [|[|[|[|//]]]] // _ h.
- rewrite /jmul big_ord1 /= bin0 mulr1n -qplusE; congr Ok.
  case: (q 0%N) (q 1%N) => ? ? ? ? [? ? ? ?].
  by rewrite /v3scale /v3sub /= ; congr V3; ring.
- rewrite jmul1 -!qplusE -qaddE; congr Ok.
  case: (q 0%N) (q 1%N) (q 2%N) => ? ? ? ? [? ? ? ?] [? ? ? ?].
  by rewrite /v3scale /v3sub /= ; congr V3; ring.
- rewrite (h 1%N) // (h 2%N) // /jmul !big_ord_recr big_ord0 /= add0r (_ : 'C(2, 1) = 2%N) // bin0 binn !mulr1n.
  rewrite (_ : (2 - 1 = 1)%N) // subnn subn0 mulr2n -!qplusE -!qaddE; congr Ok.
  case: (q 0%N) (q 1%N) (q 2%N) (q 3%N) => ? ? ? ? [? ? ? ?] [? ? ? ?] [? ? ? ?].
  by rewrite /v3scale /v3sub /= ; congr V3; ring.
Qed.
End Angular.

(* splines built by public calls *)
Section Main.
Variables (F : realFieldType) (T : realDomainType).
Variables (dbl : T -> F) (one : T).
Variables (expq : v3 F -> quat F) (logq : quat F -> v3 F) (norm : quat F -> F) (ieps : F).
Notation mf := (uq_manifold expq logq norm ieps).
Hypotheses (et : exact_time dbl one) (ex : exp_like expq).
Variables (k : nat) (kps : seq (T * vec F)) (s : dspline F T).
Hypothesis bs : built dbl mf k kps s.
Variables (t : T) (nc : bool) (np : nat).
Hypothesis tr : kp_knot kps (k - 1) <= t <= kp_knot kps (size kps - k).
Hypothesis npk : (np <= k.+1)%N.
Notation evD := (fun ev => uq_evalD dbl one expq logq ieps norm nc np s ev).
Notation angD := (fun ev => evalAngularDerivative dbl one expq logq ieps norm nc np s ev).

Let gd : good k kps. Proof. by have [] := builtE (mf := mf) isT bs. Qed.
Let sE : s = canon dbl k kps. Proof. by have [] := builtE (mf := mf) isT bs. Qed.
Let sg_ex : exists2 i, is_segment k kps t i & dm_evaluator dbl s t = Ok (ev_of dbl k kps t i).
Proof.
case/andP: tr => t1 t2; have [i sg] := segment_ex gd t1 t2; exists i => //.
by rewrite sE; apply: evaluatorE.
Qed.

Lemma main_unit : (forall j, (j < size kps)%N -> qnorm2 (quat_of (nth kp0 kps j).2) = 1) ->
  exists ev q, [/\ dm_evaluator dbl s t = Ok ev, evD ev 0%N = Ok q & qnorm2 q = 1].
Proof.
move=> hu; have [i sg he] := sg_ex; have [i1 i2 _ _] := sg.
have h : qnorm2 (quat_of (nth kp0 kps (i.+1 - k + 0)).2) = 1.
  have k0 : (0 < k)%N by case/and3P: gd.
  by apply: hu; move: i1 i2 k0; clear; lia.
have [q hq Hq] := eval0_unit et logq norm ieps ex nc gd sg npk h.
by exists (ev_of dbl k kps t i), q; split=> //; rewrite sE.
Qed.

Lemma main_quat_ub d : k = 1%N -> (1 < d)%N ->
  exists2 ev, dm_evaluator dbl s t = Ok ev & evD ev d = UB.
Proof.
move=> k1 d1; have [i sg he] := sg_ex; exists (ev_of dbl k kps t i) => //; rewrite sE.
by apply: (evalD_ub et _ _ _ _ _ gd sg npk).
Qed.

Lemma main_quat : exists i ev, [/\ is_segment k kps t i, dm_evaluator dbl s t = Ok ev,
  (forall d, (d <= 3)%N -> (2 <= k)%N || (d <= 1)%N ->
     evD ev d = Ok (quat_jet dbl one expq logq k kps t i d)),
  (forall d, (3 < d)%N -> (2 <= k)%N -> evD ev d = Throw ExnSpline)
  & (forall d, (0 < d <= 3)%N -> (2 <= k)%N || (d <= 1)%N ->
     angD ev d = Ok (omega (quat_jet dbl one expq logq k kps t i) d.-1))].
Proof.
have [i sg he] := sg_ex; exists i, (ev_of dbl k kps t i).
have H d : (d <= 3)%N -> (2 <= k)%N || (d <= 1)%N ->
     evD (ev_of dbl k kps t i) d = Ok (quat_jet dbl one expq logq k kps t i d).
  move=> d3; rewrite sE; have [k2 _|k1] := leqP 2 k.
    exact: (evalDE et logq norm ieps ex nc gd sg npk k2 d3).
  case: d d3 => [|[|//]] _ _.
    exact: (eval0E et logq norm ieps ex nc gd sg npk).
  exact: (eval1E et logq norm ieps ex nc gd sg npk).
split=> //.
  by move=> d d3 k2; rewrite sE; apply: (evalD_throw et logq norm ieps ex nc gd sg npk).
move=> d d3 dk; apply: angularE => // e ed; apply: H.
  by apply: leq_trans ed _; case/andP: d3.
by case/orP: dk => [-> //|d1]; rewrite (leq_trans ed d1) orbT.
Qed.
End Main.
