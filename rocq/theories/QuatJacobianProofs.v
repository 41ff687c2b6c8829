(* Jacobians of unit quaternion splines are derivatives of the perturbed curve. *)
From mathcomp Require Import all_ssreflect all_algebra.
From mathcomp.algebra_tactics Require Import ring.
From mathcomp.zify Require Import zify.
From Verif Require Import Prelude DMModel DMSpec DMProofs DMEvalProofs QuatModel QuatAlg QuatSpec
  QuatProofs QuatJacobianModel QuatJacobianSpec.
Set Implicit Arguments.
Unset Strict Implicit.
Unset Printing Implicit Defensive.
Import GRing.Theory Num.Theory Order.Theory.
Local Open Scope ring_scope.
#[local] Arguments fsum : simpl never.

(* ------------------------------------------------------------------ dual numbers *)
Section DualQuat.
Variable F : comRingType.
Notation DF := (dual_comRingType F).
Notation qre := (qmap (re (F := F))).
Notation qdu := (qmap (du (F := F))).

Lemma re_morph : rmorphism (re (F := F) : DF -> F).
Proof. by []. Qed.
Canonical re_additive := Additive re_morph.
Canonical re_rmorphism := RMorphism re_morph.
Lemma du_additive_p : additive (du (F := F) : DF -> F). Proof. by []. Qed.
Canonical du_additive := Additive du_additive_p.

Lemma qre_dual (q t : quat F) : qre (qdual q t) = q. Proof. by case: q. Qed.
Lemma qdu_dual (q t : quat F) : qdu (qdual q t) = t. Proof. by case: t. Qed.
Lemma quat_dual_eq (p q : quat DF) : qre p = qre q -> qdu p = qdu q -> p = q.
Proof.
case: p => [[a a'] [b b'] [c c'] [d d']]; case: q => [[e e'] [f f'] [g g'] [h h']].
by rewrite /qmap /= => -[-> -> -> ->] [-> -> -> ->].
Qed.
Lemma qreM (p q : quat DF) : qre (p * q) = qre p * qre q.
Proof. exact: (qmapM re_rmorphism). Qed.
Lemma qreD (p q : quat DF) : qre (p + q) = qre p + qre q.
Proof. exact: (qmapD re_additive). Qed.
Lemma qduD (p q : quat DF) : qdu (p + q) = qdu p + qdu q.
Proof. exact: (qmapD du_additive). Qed.
Lemma qduM (p q : quat DF) : qdu (p * q) = qdu p * qre q + qre p * qdu q.
Proof.
case: p => [[a a'] [b b'] [c c'] [d d']]; case: q => [[e e'] [f f'] [g g'] [h h']].
rewrite -!qplusE -qaddE /qplus /qmap /qmk /qadd /= /dot3 /=; congr Quat; ring.
Qed.
Lemma qreZ (a : DF) (q : quat DF) : qre (a *: q) = re a *: qre q.
Proof. exact: (qmapZ re_rmorphism). Qed.
Lemma qduZ (a : DF) (q : quat DF) : qdu (a *: q) = re a *: qdu q + du a *: qre q.
Proof.
case: q => [[e e'] [f f'] [g g'] [h h']].
rewrite -!qscaleE -qaddE /qmap /qscale /qadd /=; congr Quat; ring.
Qed.
Lemma qre_inv (q : quat DF) : qre (quatInv q) = quatInv (qre q). Proof. by []. Qed.
Lemma qdu_inv (q : quat DF) : qdu (quatInv q) = quatInv (qdu q). Proof. by []. Qed.

Lemma qre_rot (b : nat -> F) Phi r n :
  qre (rot_jet (fun e => lift (b e)) Phi r n) = rot_jet b (qre Phi) (qre r) n.
Proof.
elim/ltn_ind: n => -[|n] IH //.
rewrite !rot_jetS (qmap_sum re_additive); apply: eq_bigr => k _.
rewrite qreZ qreM IH ?ltnS ?leq_subr //; congr (_ *: _).
by rewrite (raddfMn re_additive).
Qed.

Lemma qre_jmul (f g : jet DF) n :
  qre (jmul f g n) = jmul (fun e => qre (f e)) (fun e => qre (g e)) n.
Proof.
rewrite /jmul (qmap_sum re_additive); apply: eq_bigr => k _.
by rewrite (qmapMn re_additive) qreM.
Qed.
Lemma qdu_jmul (f g : jet DF) n :
  qdu (jmul f g n) = jmul (fun e => qdu (f e)) (fun e => qre (g e)) n +
                     jmul (fun e => qre (f e)) (fun e => qdu (g e)) n.
Proof.
rewrite /jmul (qmap_sum du_additive) -big_split; apply: eq_bigr => k _ /=.
by rewrite (qmapMn du_additive) qduM mulrnDl.
Qed.

Lemma qre_jprod (J : nat -> jet DF) rest i n :
  qre (jprod J i rest n) = jprod (fun j e => qre (J j e)) i rest n.
Proof.
elim: rest i n => [//|rest IH] i n /=; rewrite qre_jmul.
by apply: eq_bigr => k _; rewrite IH.
Qed.

(* tangent of a product of jets *)
Fixpoint djprod (J T : nat -> jet F) (i rest : nat) : jet F :=
  if rest is rest'.+1 then
    fun n => jmul (J i) (djprod J T i.+1 rest') n + jmul (T i) (jprod J i.+1 rest') n
  else T i.

Lemma qdu_jprod (J : nat -> jet DF) rest i n :
  qdu (jprod J i rest n) =
  djprod (fun j e => qre (J j e)) (fun j e => qdu (J j e)) i rest n.
Proof.
elim: rest i n => [//|rest IH] i n /=; rewrite qdu_jmul addrC.
by congr (_ + _); apply: eq_bigr => k _; rewrite ?IH ?qre_jprod.
Qed.

Lemma eq_djprod (J J' T T' : nat -> jet F) rest i n :
  (forall j e, (i <= j <= i + rest)%N -> (e <= n)%N -> J j e = J' j e) ->
  (forall j e, (i <= j <= i + rest)%N -> (e <= n)%N -> T j e = T' j e) ->
  djprod J T i rest n = djprod J' T' i rest n.
Proof.
elim: rest i n => [|rest IH] i n hJ hT /=; first by rewrite hT // leqnn leq_addr.
have ii : (i <= i <= i + rest.+1)%N by rewrite leqnn leq_addr.
have hs j e m : (i.+1 <= j <= i.+1 + rest)%N -> (e <= n - m)%N ->
    (i <= j <= i + rest.+1)%N /\ (e <= n)%N.
  by move=> /andP[h1 h2] h3; rewrite (ltnW h1) addnS -addSn h2; split=> //; lia.
congr (_ + _); apply: eq_bigr => -[k /= kn] _; rewrite ltnS in kn; congr (_ *+ _).
  rewrite hJ //; congr (_ * _); apply: IH => j e h1 h2; have [h3 h4] := hs j e k h1 h2.
    exact: hJ.
  exact: hT.
rewrite hT //; congr (_ * _).
have: forall j e, (i.+1 <= j <= i.+1 + rest)%N -> (e <= n - k)%N -> J j e = J' j e.
  by move=> j e h1 h2; have [h3 h4] := hs j e k h1 h2; apply: hJ.
elim: rest (i.+1) (n - k)%N {IH hJ hT ii hs} => [|rest IH] l p h /=; first by rewrite h ?addn0 ?leqnn.
apply: eq_bigr => -[q /= qp] _; rewrite ltnS in qp; rewrite h ?leqnn ?leq_addr // IH // => j e /andP[h1 h2] h3.
by apply: h; [rewrite (ltnW h1) addnS -addSn|lia].
Qed.

(* it is additive and homogeneous in the tangents *)
Lemma djprodD (J T T' : nat -> jet F) rest i n :
  djprod J (fun j e => T j e + T' j e) i rest n = djprod J T i rest n + djprod J T' i rest n.
Proof.
elim: rest i n => [//|rest IH] i n /=; rewrite addrACA; congr (_ + _);
  rewrite /jmul -big_split; apply: eq_bigr => k _ /=.
  by rewrite IH mulrDr mulrnDl.
by rewrite mulrDl mulrnDl.
Qed.
Lemma djprodZ (J T : nat -> jet F) a rest i n :
  djprod J (fun j e => a *: T j e) i rest n = a *: djprod J T i rest n.
Proof.
elim: rest i n => [//|rest IH] i n /=; rewrite scalerDr; congr (_ + _);
  rewrite /jmul scaler_sumr; apply: eq_bigr => k _.
  by rewrite IH -scalerAr scalerMnr.
by rewrite -scalerAl scalerMnr.
Qed.
Lemma djprod0 (J : nat -> jet F) rest i n : djprod J (fun _ _ => 0) i rest n = 0.
Proof.
elim: rest i n => [//|rest IH] i n /=.
by rewrite /jmul !big1 ?addr0 // => k _; rewrite ?IH ?mulr0 ?mul0r mul0rn.
Qed.
Lemma djprod_sum (J : nat -> jet F) m (T : 'I_m -> nat -> jet F) rest i n :
  djprod J (fun j e => \sum_(x < m) T x j e) i rest n = \sum_(x < m) djprod J (T x) i rest n.
Proof.
elim: m T => [|m IH] T.
  rewrite big_ord0; apply: etrans (djprod0 J rest i n); apply: eq_djprod; first by [].
  by move=> j e _ _; rewrite big_ord0.
rewrite big_ord_recr /= -IH -djprodD; apply: eq_djprod; first by [].
by move=> j e _ _; rewrite big_ord_recr.
Qed.

Lemma jprod_order0 (J : nat -> jet F) rest i :
  jprod J i rest 0%N = \prod_(i <= m < i + rest.+1) J m 0%N.
Proof.
elim: rest i => [|rest IH] i /=; first by rewrite addn1 big_nat1.
by rewrite jmul0 IH [in RHS]big_ltn ?addSnnS // -addSnnS ltnS leq_addr.
Qed.
Lemma djprod_order0 (J T : nat -> jet F) rest i :
  djprod J T i rest 0%N = \sum_(i <= l < i + rest.+1)
    (\prod_(i <= m < l) J m 0%N) * (T l 0%N * \prod_(l.+1 <= m < i + rest.+1) J m 0%N).
Proof.
elim: rest i => [|rest IH] i /=; first by rewrite addn1 big_nat1 !big_geq // mul1r mulr1.
have lt : (i < i + rest.+2)%N by rewrite -addSnnS ltnS leq_addr.
rewrite !jmul0 jprod_order0 IH [in RHS]big_ltn // [X in X * _ + _]big_geq // mul1r addrC addSnnS.
congr (_ + _); rewrite mulr_sumr; apply: eq_big_nat => l /andP[il _].
by rewrite [\prod_(i <= m < l) _]big_ltn // mulrA.
Qed.
End DualQuat.

(* ------------------------------------------------------------------ the recursion *)
Section Rest.
Variable F : realFieldType.
Notation H := (quat F).

Lemma jacobianRestE (riD : nat -> nat -> outcome H) (riJ : nat -> nat -> outcome (jac F))
  J (T : nat -> nat -> jac F) j rest i d m :
  (forall l e, (i <= l <= i + rest)%N -> (e <= d)%N -> riD e l = Ok (J l e)) ->
  (forall l e, (i <= l <= i + rest)%N -> (e <= d)%N -> ~~ isJacobianZero l j ->
     exists2 A, riJ e l = Ok A & A =1 T l e) ->
  (forall l e c, isJacobianZero l j -> T l e c = 0) ->
  exists2 A, jacobianRest riD riJ j rest d i (m * d`!) = Ok A &
    forall c, A c = m%:R *: djprod J (fun l e => T l e c) i rest d.
Proof.
elim: rest i d m => [|rest IH] i d m hJ hT hz.
  rewrite [jacobianRest _ _ _ _ _ _ _]/=; case: ifP => z.
    have [||A -> eA] := hT i d _ _ z; rewrite ?addn0 ?leqnn //.
    by eexists; [reflexivity|] => c; rewrite /jscale eA factorialE mulnK ?fact_gt0.
  eexists; first by reflexivity.
  by move=> c /=; rewrite hz ?scaler0 //; move/negbFE: z.
have ii : (i <= i <= i + rest.+1)%N by rewrite leqnn leq_addr.
have hi e : (e <= d)%N -> riD e i = Ok (J i e) by move=> ed; rewrite hJ.
have hs j' e e' : (i.+1 <= j' <= i.+1 + rest)%N -> (e' <= d - e)%N ->
    (i <= j' <= i + rest.+1)%N /\ (e' <= d)%N.
  by move=> /andP[h1 h2] h3; rewrite (ltnW h1) addnS -addSn h2; split=> //; lia.
have hp e m' : (e <= d)%N ->
    productRest riD rest (d - e) i.+1 (m' * (d - e)`!) = Ok (m'%:R *: jprod J i.+1 rest (d - e)%N).
  move=> ed; apply: productRestE => j' e' h1 h2; have [h3 h4] := hs j' e e' h1 h2; exact: hJ.
have hr e m' : (e <= d)%N -> exists2 A,
    jacobianRest riD riJ j rest (d - e) i.+1 (m' * (d - e)`!) = Ok A &
    forall c, A c = m'%:R *: djprod J (fun l e => T l e c) i.+1 rest (d - e)%N.
  move=> ed; apply: IH; last exact: hz.
    move=> j' e' h1 h2; have [h3 h4] := hs j' e e' h1 h2; exact: hJ.
  move=> j' e' h1 h2; have [h3 h4] := hs j' e e' h1 h2; exact: hT.
pose term c e : H := (J i e * djprod J (fun l e => T l e c) i.+1 rest (d - e)%N +
  T i e c * jprod J i.+1 rest (d - e)%N) *+ 'C(d, e).
(* one step: the two additions *)
have step e (A : jac F) : (e <= d)%N -> exists2 B,
   (do result <- (if ~~ isJacobianZero i j then
        do q <- productRest riD rest (d - e) i.+1 (m * d`! %/ factorial e)%N ;
        do J <- riJ e i ;
        Ok (jadd A (japp (quatOPlus q) J))
      else Ok A) ;
    do r <- riD e i ;
    do p <- jacobianRest riD riJ j rest (d - e) i.+1 (m * d`! %/ factorial e)%N ;
    Ok (jadd result (japp (quatPlus r) p))) = Ok B &
   forall c, B c = A c + m%:R *: term c e.
  move=> ed; rewrite factorialE kf_div // hp // hi //.
  have [A1 -> eA1] := hr e (m * 'C(d, e))%N ed.
  case: ifP => z.
    have [A2 -> eA2] := hT i e ii ed z.
    eexists; first by reflexivity.
    move=> c; rewrite /jadd /japp /quatOPlus /quatPlus !(qaddE, qplusE) eA1 eA2 /term.
    rewrite natrM mulrnDl scalerDr -!scaler_nat !scalerA -!scalerAr.
    by rewrite -addrA [X in A c + X]addrC.
  eexists; first by reflexivity.
  move=> c; rewrite /jadd /japp /quatOPlus /quatPlus !(qaddE, qplusE) eA1 /term.
  rewrite [T i e c]hz; last by move/negbFE: z.
  by rewrite mul0r addr0 natrM -scaler_nat scalerA -scalerAr.
rewrite [jacobianRest _ _ _ _ _ _ _]/= hi //.
have [A1 + eA1] := hr 0%N m (leq0n _); rewrite subn0 => ->; rewrite [obind (Ok _) _]/=.
set r0 := (X in obind X _).
have [B0 -> eB0] : exists2 B, r0 = Ok B & forall c, B c = m%:R *: term c 0%N.
  rewrite /r0; case: ifP => z.
    have := hp 0%N m (leq0n _); rewrite subn0 => ->.
    have [A2 -> eA2] := hT i 0%N ii (leq0n _) z.
    eexists; first by reflexivity.
    move=> c; rewrite /jadd /japp /quatOPlus /quatPlus !(qaddE, qplusE) eA1 eA2 /term subn0 bin0.
    by rewrite mulr1n scalerDr -!scalerAr.
  eexists; first by reflexivity.
  move=> c; rewrite /japp /quatPlus qplusE eA1 /term [T i _ c]hz; last by move/negbFE: z.
  by rewrite mul0r addr0 subn0 bin0 mulr1n -scalerAr.
rewrite [obind (Ok B0) _]/=.
set body := (X in oloop _ _ X).
have [B -> eB] : exists2 B, oloop 1 d.+1 body B0 = Ok B &
    forall c, B c = m%:R *: \sum_(e < d.+1) term c e.
  apply: (@oloop_ind _ 1 d.+1 body B0
    (fun q (B : jac F) => forall c, B c = m%:R *: \sum_(e < q) term c e)) => //.
    by move=> c; rewrite big_ord1 eB0.
  move=> e B ed eB; have [|B' eq eB'] := step e B; first by case/andP: ed.
  exists B'; first exact: eq.
  by move=> c; rewrite eB' eB big_ord_recr scalerDr.
exists B => // c; rewrite eB /= -big_split; congr (_ *: _); apply: eq_bigr => e _.
by rewrite /term mulrnDl.
Qed.
End Rest.

Section RestThrow.
Variable F : realFieldType.
Notation H := (quat F).
Lemma jacobianRest_throw (riD : nat -> nat -> outcome H) (riJ : nat -> nat -> outcome (jac F)) J
  rest d x : (0 < d)%N ->
  (forall l e, (1 <= l <= 1 + rest)%N -> (e <= d)%N -> riD e l = Ok (J l e)) ->
  (forall e, (e < d)%N -> exists A, riJ e 1%N = Ok A) -> riJ d 1%N = Throw x ->
  jacobianRest riD riJ 0 rest d 1 d`! = Throw x.
Proof.
move=> d0 hJ hT hd; case: rest hJ => [|rest] hJ; first by rewrite /= hd.
have hi e : (e <= d)%N -> riD e 1%N = Ok (J 1%N e) by move=> ed; rewrite hJ.
have hs l e e' : (2 <= l <= 2 + rest)%N -> (e' <= d - e)%N ->
    (1 <= l <= 1 + rest.+1)%N /\ (e' <= d)%N.
  by move=> /andP[h1 h2] h3; rewrite (ltnW h1) addnS -addSn h2; split=> //; lia.
have hp e m' : (e <= d)%N ->
    productRest riD rest (d - e) 2 (m' * (d - e)`!) = Ok (m'%:R *: jprod J 2 rest (d - e)%N).
  move=> ed; apply: productRestE => l e' h1 h2; have [h3 h4] := hs l e e' h1 h2; exact: hJ.
have hr e m' : (e <= d)%N -> exists A,
    jacobianRest riD riJ 0 rest (d - e) 2 (m' * (d - e)`!) = Ok A.
  move=> ed; have [|||A -> _] := @jacobianRestE F riD riJ J (fun _ _ _ => 0) 0 rest 2 (d - e) m'.
  - move=> l e' h1 h2; have [h3 h4] := hs l e e' h1 h2; exact: hJ.
  - by case=> [|[|[|l]]].
  - by [].
  by exists A.
rewrite [jacobianRest _ _ _ _ _ _ _]/= hi //.
have [A1 +] := hr 0%N 1%N (leq0n _); rewrite subn0 mul1n => ->; rewrite [obind (Ok _) _]/=.
have [A2 ->] := hT 0%N d0; have := hp 0%N 1%N (leq0n _); rewrite subn0 mul1n => ->.
rewrite [obind (Ok _) _]/=; set B0 := jadd _ _; set body := (X in oloop _ _ X).
have step e A : (e <= d)%N -> body e A =
    obind (do Q <- riJ e 1%N ; Ok (jadd A (japp (quatOPlus ('C(d, e)%:R *: jprod J 2 rest (d - e)%N)) Q)))
      (fun result => do r <- riD e 1%N ;
         do p <- jacobianRest riD riJ 0 rest (d - e) 2 ('C(d, e) * (d - e)`!) ;
         Ok (jadd result (japp (quatPlus r) p))).
  move=> ed; rewrite /body factorialE.
  by have := kf_div 1 ed; rewrite !mul1n => ->; rewrite hp.
rewrite oloopSr //.
have [B -> _] : exists2 B, oloop 1 d body B0 = Ok B & True.
  apply: (@oloop_ind _ 1 d body B0 (fun _ _ => True)) => // e B /andP[_ ed] _.
  rewrite step ?(ltnW ed) //; have [A ->] := hT e ed; rewrite hi ?(ltnW ed) //.
  by have [A' ->] := hr e 'C(d, e) (ltnW ed); eexists; [reflexivity|].
by rewrite [obind (Ok _) _]/= step // hd.
Qed.
End RestThrow.

(* ------------------------------------------------------------------ one factor *)
Section Factor.
Variable F : realFieldType.
Notation H := (quat F).
Notation DF := (dual_comRingType F).
Notation qre := (qmap (re (F := F))).
Notation qdu := (qmap (du (F := F))).

Lemma v3_eq (v w : v3 F) : vx v = vx w -> vy v = vy w -> vz v = vz w -> v = w.
Proof. by case: v w => [a b c] [d e f] /= -> -> ->. Qed.

Lemma m3app_mul (A B : m3 F) v : m3app (m3mul A B) v = m3app A (m3app B v).
Proof. by apply: v3_eq => /=; ring. Qed.
Lemma m3app_scale (A : m3 F) a v : m3app A (v3scale a v) = v3scale a (m3app A v).
Proof. by apply: v3_eq => /=; ring. Qed.
Lemma m3app_unit v : m3app (@unit3 F) v = v.
Proof. by apply: v3_eq => /=; ring. Qed.

Lemma mulV_add (v w : v3 F) : mulV (v3add v w) = mulV v + mulV w.
Proof. by rewrite -qaddE /mulV /qadd /qmk /=; congr Quat; rewrite ?mulrDr ?addr0. Qed.
Lemma mulV_sub (v w : v3 F) : mulV (v3sub v w) = mulV v - mulV w.
Proof.
have -> : v3sub v w = v3add v (v3scale (-1) w) by apply: v3_eq => /=; ring.
by rewrite mulV_add mulVZ scaleN1r.
Qed.
Lemma mulV_inv (v : v3 F) : quatInv (mulV v) = - mulV v.
Proof. by rewrite -scaleN1r -qscaleE /quatInv /mulV /qscale /qmk /=; congr Quat; ring. Qed.
Lemma mulV_m3app (A : m3 F) v :
  mulV (m3app A v) = vx v *: mulV (A 0%N) + vy v *: mulV (A 1%N) + vz v *: mulV (A 2%N).
Proof. by rewrite !mulV_add !mulVZ. Qed.

(* quat2r is conjugation *)
Lemma quat2rE (q : H) v : m3app (quat2r q) v = v3scale 2%:R (qeps (q * mulV v * quatInv q)).
Proof.
case: q => a b c d; case: v => x y z; rewrite -!qplusE.
by apply: v3_eq; rewrite /= /dot3 /=; field.
Qed.

(* tangent of the factor exp(b phi) and of its derivatives for a tangent x of phi *)
Section Tangent.
Variables (S : v3 F -> m3 F) (w : nat -> F) (phi : v3 F) (R : H).
Definition tan0 (x : v3 F) : H := mulV (m3app (S (v3scale (w 0%N) phi)) (v3scale (w 0%N) x)) * R.
Definition tan1 (x : v3 F) : H := mulV x * R + mulV phi * tan0 x.
Definition tanD (d : nat) (x : v3 F) : H :=
  match d with
  | 0%N => tan0 x
  | 1%N => w 1%N *: tan1 x
  | _ => ((w 1%N * w 1%N) *: mulV phi + w 2%N *: 1) * tan1 x +
         ((w 1%N * w 1%N) *: mulV x) * (mulV phi * R)
  end.

Lemma tan0_m3app A v : tan0 (m3app A v) =
  vx v *: tan0 (A 0%N) + vy v *: tan0 (A 1%N) + vz v *: tan0 (A 2%N).
Proof.
rewrite /tan0 !m3app_scale -m3app_mul !mulVZ mulV_m3app /m3mul.
by rewrite !scalerDr !mulrDl -!scalerAl !scalerA ![w 0%N * _]mulrC.
Qed.
Lemma tan1_m3app A v : tan1 (m3app A v) =
  vx v *: tan1 (A 0%N) + vy v *: tan1 (A 1%N) + vz v *: tan1 (A 2%N).
Proof.
rewrite /tan1 tan0_m3app mulV_m3app !mulrDl !mulrDr -!scalerAl -!scalerAr !scalerDr.
by rewrite addrACA; congr (_ + _); rewrite addrACA.
Qed.
Lemma tanD_m3app d A v : tanD d (m3app A v) =
  vx v *: tanD d (A 0%N) + vy v *: tanD d (A 1%N) + vz v *: tanD d (A 2%N).
Proof.
case: d => [|[|d]]; rewrite /tanD; first exact: tan0_m3app.
  by rewrite tan1_m3app !scalerDr !scalerA ![w 1%N * _]mulrC.
rewrite tan1_m3app mulV_m3app.
move: (_ *: mulV phi + _) (mulV phi * R) (tan1 (A _)) (tan1 (A _)) (tan1 (A _)) => a b x0 x1 x2.
rewrite !scalerDr !mulrDr !mulrDl -!scalerAr -!scalerAl !scalerA.
rewrite ![(w 1%N * w 1%N) * _]mulrC -!scalerA.
by rewrite addrACA; congr (_ + _); rewrite addrACA.
Qed.
End Tangent.

Lemma qre_dmulV (v : v3 DF) : qre (dmulV v) = mulV (v3map (re (F := F)) v). Proof. by []. Qed.
Lemma qdu_dmulV (v : v3 DF) : qdu (dmulV v) = mulV (v3map (du (F := F)) v).
Proof. by rewrite /qmap /dmulV /mulV /qmk /=; congr Quat; rewrite ?mul0r ?addr0. Qed.

Lemma qduL a (q : quat DF) : qdu (lift a *: q) = a *: qdu q.
Proof. by rewrite qduZ /= scale0r addr0. Qed.

Lemma qdu_rot (expq : v3 F -> H) (S : v3 F -> m3 F) (w : nat -> F) (phi : v3 DF) d : (d <= 2)%N ->
  let p := v3map (re (F := F)) phi in
  qdu (rot_jet (fun n => lift (w n)) (dmulV phi) (dexp expq S (v3scale (lift (w 0%N)) phi)) d) =
  tanD S w p (expq (v3scale (w 0%N) p)) d (v3map (du (F := F)) phi).
Proof.
move=> d2 p; set x := v3map _ phi; set E := dexp _ _ _.
have reE : v3map (re (F := F)) (v3scale (lift (w 0%N)) phi) = v3scale (w 0%N) p by [].
have duE : v3map (du (F := F)) (v3scale (lift (w 0%N)) phi) = v3scale (w 0%N) x.
  by apply: v3_eq => /=; rewrite mul0r addr0.
have r0 : qre E = expq (v3scale (w 0%N) p) by rewrite /E /dexp qre_dual reE.
have t0 : qdu E = tan0 S w p (qre E) x by rewrite r0 /E /dexp qdu_dual reE duE.
have t1 : qdu (dmulV phi * E) = tan1 S w p (qre E) x.
  by rewrite qduM t0 qdu_dmulV qre_dmulV.
rewrite -r0; case: d d2 => [|[|[|//]]] _; first exact: t0.
  by rewrite rot_jet1 qduZ t1 /= scale0r addr0.
rewrite rot_jetS big_ord_recl big_ord1 rot_jet0 rot_jet1 /= !bin0 bin1.
rewrite !mulr1n qduD !qduL t1 qduM qduL t1 qreZ qreM qre_dmulV qdu_dmulV -/x -/p.
have -> : bump 0 0 = 1%N by [].
move: (mulV p * qre E) (tan1 S w p _ x) => b y.
rewrite [re _]/= mulrDl -!scalerAr -!scalerAl mul1r scalerDr !scalerA.
by rewrite -[LHS]addrA [LHS]addrC.
Qed.
End Factor.

(* ------------------------------------------------------------------ blocks *)
Section Blocks.
Variable F : realFieldType.
Notation H := (quat F).

Lemma put_block_same (M : mat F) j B r c : (r < 4)%N -> (c < 3)%N ->
  put_block M j B r (j * 3 + c)%N = vec_of (B c) r.
Proof.
move=> r4 c3; rewrite /put_block /set_block /= r4 leq_addr ltn_add2l c3 /=.
by rewrite subn0 addKn.
Qed.
Lemma put_block_other (M : mat F) j B r j' c : (c < 3)%N -> j' != j ->
  put_block M j B r (j' * 3 + c)%N = M r (j' * 3 + c)%N.
Proof.
move=> c3 jj; rewrite /put_block /set_block; case: ifP => // /and4P[_ _ h1 h2].
have e : j' = j by lia.
by rewrite e eqxx in jj.
Qed.

(* combination of the columns of a block *)
Definition comb (B : jac F) (v : v3 F) : H := vx v *: B 0%N + vy v *: B 1%N + vz v *: B 2%N.

Lemma vec_of_comb B v r : vec_of (comb B v) r =
  vec_of (B 0%N) r * vx v + vec_of (B 1%N) r * vy v + vec_of (B 2%N) r * vz v.
Proof.
rewrite /comb; move: (B 0%N) (B 1%N) (B 2%N) => [a1 a2 a3 a4] [b1 b2 b3 b4] [c1 c2 c3 c4].
rewrite -!qscaleE -!qaddE /qadd /qscale /=.
by case: r => [|[|[|[|r]]]] /=; ring.
Qed.
Lemma vec_ofD (p q : H) r : vec_of (p + q) r = vec_of p r + vec_of q r.
Proof. by case: r => [|[|[|[|r]]]] /=; rewrite ?addr0. Qed.
Lemma vec_of0 r : vec_of (0 : H) r = 0. Proof. by case: r => [|[|[|[|r]]]]. Qed.

Lemma jac_applyE k (M : mat F) (B : nat -> jac F) (delta : nat -> v3 F) r : (r < 4)%N ->
  (forall j c r, (j < k)%N -> (c < 3)%N -> (r < 4)%N -> M r (j * 3 + c)%N = vec_of (B j c) r) ->
  jac_apply k M delta r = vec_of (\sum_(j < k) comb (B j) (delta j)) r.
Proof.
move=> r4; elim: k => [|k IH] hM; first by rewrite /jac_apply muln0 !big_ord0 vec_of0.
rewrite big_ord_recr /= vec_ofD -IH => [|j c r' jk]; last by apply: hM; lia.
rewrite /jac_apply -!(big_mkord xpredT (fun c => M r c * vec_of3 (delta (c %/ 3)%N) (c %% 3)%N)).
have -> : (3 * k.+1 = (k * 3).+3)%N by lia.
rewrite !big_nat_recr //= [(3 * k)%N]mulnC -!addrA; congr (_ + _).
have e c : (c < 3)%N -> M r (k * 3 + c)%N * vec_of3 (delta ((k * 3 + c) %/ 3)%N) ((k * 3 + c) %% 3)%N =
    vec_of (B k c) r * vec_of3 (delta k) c.
  move=> c3; rewrite hM // divnMDl // divn_small // addn0 modnMDl modn_small //.
have := e 0%N isT; have := e 1%N isT; have := e 2%N isT; rewrite addn0 addn1 addn2 => -> -> ->.
by rewrite vec_of_comb !addrA.
Qed.

(* filling the blocks one after the other *)
Lemma blocks_ok (X : Type) (pm : X -> mat F) k (body : nat -> X -> outcome X) (B : nat -> jac F)
  (I : nat -> X -> Prop) x0 : I 0%N x0 ->
  (forall j x, (j < k)%N -> I j x -> exists A x', [/\ body j x = Ok x',
     pm x' = put_block (pm x) j A, forall c, (c < 3)%N -> A c = B j c & I j.+1 x']) ->
  exists2 x, oloop 0 k body x0 = Ok x &
   forall j c r, (j < k)%N -> (c < 3)%N -> (r < 4)%N -> pm x r (j * 3 + c)%N = vec_of (B j c) r.
Proof.
move=> i0 hb.
pose I' q (x : X) := I q x /\ forall j c r, (j < q)%N -> (c < 3)%N -> (r < 4)%N ->
     pm x r (j * 3 + c)%N = vec_of (B j c) r.
have [x e [_ h]] : exists2 x, oloop 0 k body x0 = Ok x & I' k x.
  apply: oloop_ind => //.
  move=> q x /andP[_ qk] /= [iq h]; have [A [x' [-> ex eA iS]]] := hb q x qk iq.
  eexists; first by reflexivity.
  split=> // j c r jq c3 r4 /=; rewrite ex; move: jq; rewrite ltnS leq_eqVlt => /orP[/eqP ->|jq].
    by rewrite put_block_same // eA.
  by rewrite put_block_other ?(ltn_eqF jq) //; apply: h.
by exists x.
Qed.

Lemma combM (a : H) B v : comb (fun c => a * B c) v = a * comb B v.
Proof. by rewrite /comb !mulrDr -!scalerAr. Qed.
Lemma comb_mul (a : H) B v : comb (fun c => B c * a) v = comb B v * a.
Proof. by rewrite /comb !mulrDl -!scalerAl. Qed.
Lemma combD A B v : comb (fun c => A c + B c) v = comb A v + comb B v.
Proof. by rewrite /comb !scalerDr [RHS]addrACA [X in _ = X + _]addrACA. Qed.
Lemma combN B v : comb (fun c => - B c) v = - comb B v.
Proof. by rewrite /comb !scalerN -!opprD. Qed.
Lemma comb0 v : comb (fun=> 0) v = 0. Proof. by rewrite /comb !scaler0 !addr0. Qed.
Lemma comb_sub B v w : comb B (v3sub v w) = comb B v - comb B w.
Proof. by rewrite /comb /= !scalerBl !opprD [RHS]addrACA [X in _ = X + _]addrACA. Qed.
Lemma comb_unit v : comb (Vmul (@unit3 F)) v = mulV v.
Proof. by rewrite -[in RHS](m3app_unit v) mulV_m3app. Qed.
Lemma eq_comb A B v : (forall c, (c < 3)%N -> A c = B c) -> comb A v = comb B v.
Proof. by move=> h; rewrite /comb !h. Qed.
Lemma djprod_comb J (T : nat -> nat -> jac F) rest i n v :
  comb (fun c => djprod J (fun l e => T l e c) i rest n) v =
  djprod J (fun l e => comb (T l e) v) i rest n.
Proof. by rewrite /comb !djprodD !djprodZ. Qed.
End Blocks.

(* ------------------------------------------------------------------ the spline *)
Section Spline.
Variables (F : realFieldType) (T : realDomainType).
Variables (dbl : T -> F) (one : T).
Hypothesis et : exact_time dbl one.
Variables (expq : v3 F -> quat F) (logq : quat F -> v3 F) (norm : quat F -> F) (ieps : F).
Variables (S L : v3 F -> m3 F).
Hypothesis ex : exp_like expq.
Variables (k : nat) (kps : seq (T * vec F)) (t : T) (i : nat) (nc : bool) (np : nat).
Hypotheses (gd : good k kps) (sg : is_segment k kps t i) (npk : (np <= k.+1)%N).
Notation H := (quat F).
Notation DF := (dual_comRingType F).
Notation qre := (qmap (re (F := F))).
Notation qdu := (qmap (du (F := F))).
Notation cs := (canon dbl k kps).
Notation ev := (ev_of dbl k kps t i).
Notation W := (cum_weight dbl one k kps t i).
Notation P := (quat_pt k kps i).
Notation phi := (quat_phi logq k kps i).
Notation R := (fun j => expq (v3scale (W 0%N j) (phi j))).
Notation J := (fun j => rot_jet (fun n => W n j) (mulV (phi j)) (R j)).
Hypothesis unitP : forall j, (j < k)%N -> qnorm2 (P j) = 1.

Let k0 : (0 < k)%N. Proof. by case/and3P: gd. Qed.

(* Jacobian of phi_l and tangents of the factor l in direction c *)
Definition phiJac l : m3 F := m3mul (L (phi l)) (quat2r (quatInv (P l.-1))).
Definition RJ l d : jac F := fun c => tanD S (fun n => W n l) (phi l) (R l) d (phiJac l c).
(* with respect to vertex j *)
Definition TJ j l d : jac F := fun c =>
  if l == j then RJ l d c else if j.+1 == l then - RJ l d c else 0.

Lemma cumBi_val d : exists2 b, dm_getLocalCumulativeBi dbl one nc np cs ev d = Ok b &
  forall j, (0 < j < k)%N -> b j = W d j.
Proof. exact: (cumBiE et nc gd sg npk). Qed.

Section Cache.
Variable c : calc_cache F.
Hypothesis hcv : forall j, (j < k)%N -> cc_cv c j = P j.
Hypothesis hphi : forall j, (0 < j < k)%N -> getLocalPhiVector c j = phi j.
Hypothesis hR : forall j, (0 < j < k)%N -> getLocalRiPoint c j = R j.

Lemma phiJacE l : (0 < l < k)%N -> getPhiVectorJacobian L c l = phiJac l.
Proof.
move=> lk; rewrite /getPhiVectorJacobian hphi // hcv ?subn1 //.
by case/andP: lk => l0; case: l l0 => // l _ /ltnW.
Qed.

Lemma riJac0E l : (0 < l < k)%N ->
  getRiDJacobian0 dbl one S L nc np cs ev c l = Ok (RJ l 0).
Proof.
move=> lk; have [b e eb] := cumBi_val 0.
by rewrite /getRiDJacobian0 e /obind phiJacE // hR // hphi // eb.
Qed.
Lemma riJacE d l : (0 < l < k)%N -> (d <= 2)%N ->
  exists2 A, getRiDJacobian dbl one S L nc np cs ev c d l = Ok A & A =1 RJ l d.
Proof.
move=> lk d2; have [b1 e1 h1] := cumBi_val 1; have [b2 e2 h2] := cumBi_val 2.
rewrite /getRiDJacobian riJac0E // /obind phiJacE // hR // hphi // e1 e2.
case: d d2 => [|[|[|//]]] _; first by exists (RJ l 0).
  by eexists; [reflexivity|] => x; rewrite /jscale /jadd /japp h1.
eexists; first by reflexivity.
move=> x; rewrite /jscale /jadd /japp h1 // h2 // qscalar.
by rewrite /quatPlus /quatOPlus.
Qed.
Lemma riJac_throw d l : (0 < l < k)%N -> (2 < d)%N ->
  getRiDJacobian dbl one S L nc np cs ev c d l = Throw ExnSpline.
Proof.
by case: d => [|[|[|d]]] // lk _; rewrite /getRiDJacobian riJac0E.
Qed.
Lemma TJ_zero j l e x : isJacobianZero l j -> TJ j l e x = 0.
Proof. by rewrite /isJacobianZero /TJ => /andP[/negbTE -> /negbTE ->]. Qed.
Lemma riJacAtE j e l : (0 < l < k)%N -> (e <= 2)%N -> ~~ isJacobianZero l j ->
  exists2 A, getRiDJacobianAt dbl one S L nc np cs ev c e l j = Ok A & A =1 TJ j l e.
Proof.
move=> lk e2 z; rewrite /getRiDJacobianAt (negbTE z).
have [A -> eA] := riJacE lk e2; eexists; first by reflexivity.
move=> x; rewrite /jscale eA /getJacobianSignum /TJ; move: z; rewrite /isJacobianZero.
case: eqP => /= [_ _|_]; first exact: scale1r.
by rewrite negbK => ->; exact: scaleN1r.
Qed.

Lemma riProductE from to : (0 < from <= to)%N -> (to <= k)%N ->
  getRiQuaternionProduct c from to = \prod_(from <= l < to) R l.
Proof.
move=> /andP[f0 ft] tk; rewrite /getRiQuaternionProduct; case: eqP => [->|/eqP ne].
  by rewrite big_geq.
have lt : (from < to)%N by rewrite ltn_neqAle ne.
elim: to lt tk {ft ne} => // to IH; rewrite ltnS leq_eqVlt => /orP[/eqP <-|lt] tk.
  by rewrite floop_nil // big_nat1 hR // f0.
rewrite floopSr // IH ?(ltnW tk) // big_nat_recr ?(ltnW lt) //= hR //.
by rewrite tk andbT (leq_trans _ lt).
Qed.
End Cache.

Section Delta.
Variable delta : nat -> v3 F.
Notation dP := (dual_pt delta k kps i).
Notation dphi := (dual_phi logq L delta k kps i).
Notation dJ := (fun j => rot_jet (fun n => lift (W n j)) (dmulV (dphi j))
  (dexp expq S (v3scale (lift (W 0%N j)) (dphi j)))).
Notation dlt l := (v3sub (delta l) (delta l.-1)).

Lemma re_dphi l : v3map (re (F := F)) (dphi l) = phi l.
Proof.
rewrite /dual_phi /dlog.
have -> : qre (quatInv (dP l.-1) * dP l) = quatInv (P l.-1) * P l by rewrite qreM qre_inv !qre_dual.
by rewrite -/(phi l); case: (phi l).
Qed.
Lemma du_dphi l : (0 < l < k)%N -> v3map (du (F := F)) (dphi l) = m3app (phiJac l) (dlt l).
Proof.
move=> /andP[l0 lk]; rewrite /dual_phi /dlog.
have e1 : qre (quatInv (dP l.-1) * dP l) = quatInv (P l.-1) * P l by rewrite qreM qre_inv !qre_dual.
rewrite e1 -/(phi l); set v := (X in v3dual _ (m3app _ X)).
have -> : v3map (du (F := F)) (v3dual (phi l) (m3app (L (phi l)) v)) = m3app (L (phi l)) v by [].
rewrite /phiJac m3app_mul; congr m3app; rewrite /v quat2rE; congr (v3scale _ (qeps _)).
rewrite qduM qre_inv qdu_inv !qre_dual !qdu_dual !quatInv_mul !quatInvK mulV_inv mulV_sub.
rewrite [_ * (mulV (delta l) * _)]mulrA -mulrDl -mulrDr [- _ + _]addrC -!mulrA.
by congr (_ * (_ * _)); rewrite mulrA qmul_inv unitP // scale1r mul1r.
Qed.
Lemma qdu_dJ l d : (0 < l < k)%N -> (d <= 2)%N -> qdu (dJ l d) = comb (RJ l d) (dlt l).
Proof.
by move=> lk d2; rewrite qdu_rot // re_dphi du_dphi // tanD_m3app.
Qed.
Lemma qre_dJ l d : qre (dJ l d) = J l d.
Proof.
rewrite qre_rot qre_dmulV re_dphi; congr rot_jet.
by rewrite /dexp qre_dual -re_dphi.
Qed.
Lemma sum_TJ l d : (0 < l < k)%N ->
  \sum_(j < k) comb (TJ j l d) (delta j) = comb (RJ l d) (dlt l).
Proof.
move=> /andP[l0 lk]; have lk' : (l.-1 < k)%N by rewrite (leq_ltn_trans (leq_pred _)).
have e : forall j : 'I_k, comb (TJ j l d) (delta j) =
    (if j == Ordinal lk then comb (RJ l d) (delta l) else 0) +
    (if j == Ordinal lk' then - comb (RJ l d) (delta l.-1) else 0).
  move=> j; rewrite -!val_eqE /= /TJ; case: (eqVneq l j) => [<-|ne].
    by rewrite [l == l.-1]gtn_eqF ?addr0 // ltn_predL.
  case: (eqVneq j.+1 l) => [<-|ne']; first by rewrite /= eqxx add0r combN.
  rewrite comb0 add0r; case: eqP => // e.
  by rewrite e prednK // eqxx in ne'.
by rewrite (eq_bigr _ (fun j _ => e j)) big_split /= -!big_mkcond !big_pred1_eq comb_sub.
Qed.

Lemma dual_jetE d : (1 < k)%N -> (d <= 2)%N ->
  qdu (dual_jet dbl one expq logq S L delta k kps t i d) =
  mulV (delta 0%N) * (P 0%N * jprod J 1 (k - 2) d) +
  P 0%N * djprod J (fun l e => comb (RJ l e) (dlt l)) 1 (k - 2) d.
Proof.
move=> k1 d2; rewrite /dual_jet; have -> : (k - 1 = (k - 2).+1)%N by lia.
rewrite [jcurve _ _ _]/= jmul_const qduM qdu_dual qre_dual qre_jprod qdu_jprod -mulrA.
congr (_ * (_ * _) + _ * _).
  by apply: eq_jprod => l e; apply: qre_dJ.
apply: eq_djprod => l e /andP[l1 l2] ed; first exact: qre_dJ.
by apply: qdu_dJ; [lia|exact: leq_trans d2].
Qed.
Lemma dual_jet_order1 : k = 1%N ->
  qdu (dual_jet dbl one expq logq S L delta k kps t i 0%N) = mulV (delta 0%N) * P 0%N.
Proof.
move=> k1; rewrite /dual_jet; have -> : (k - 1 = 0)%N by rewrite k1.
by rewrite /= qdu_dual.
Qed.

(* the blocks *)
Definition blk d j : jac F := fun c =>
  (if j == 0%N then Vmul (@unit3 F) c * (P 0%N * jprod J 1 (k - 2) d) else 0) +
  P 0%N * djprod J (fun l e => TJ j l e c) 1 (k - 2) d.
Lemma sum_blk d : (1 < k)%N -> (d <= 2)%N -> \sum_(j < k) comb (blk d j) (delta j) =
  qdu (dual_jet dbl one expq logq S L delta k kps t i d).
Proof.
move=> k1 d2; rewrite dual_jetE //.
rewrite (eq_bigr (fun j : 'I_k => (if j == Ordinal k0 then
     mulV (delta 0%N) * (P 0%N * jprod J 1 (k - 2) d) else 0) +
     P 0%N * djprod J (fun l e => comb (TJ j l e) (delta j)) 1 (k - 2) d)); last first.
  move=> j _; rewrite /blk combD combM djprod_comb; congr (_ + _); rewrite -val_eqE /=.
  by case: eqP => [->|_]; rewrite ?comb_mul ?comb_unit ?comb0.
rewrite big_split /= -big_mkcond big_pred1_eq -mulr_sumr -djprod_sum; congr (_ + _ * _).
by apply: eq_djprod => l e /andP[l1 l2] _ //; apply: sum_TJ; lia.
Qed.
End Delta.

(* ------------------------------------------------------------------ the functions *)
Lemma jacRecE d : (1 < k)%N -> (d <= 2)%N -> exists2 M,
  evalJacobianDRecursive dbl one expq logq S L nc np cs ev d = Ok M &
  forall j c r, (j < k)%N -> (c < 3)%N -> (r < 4)%N -> M r (j * 3 + c)%N = vec_of (blk d j c) r.
Proof.
move=> k1 d2; have [c ec [hcv hphi hR]] := cache_cvE et expq logq nc gd sg npk.
rewrite /evalJacobianDRecursive ec [obind (Ok c) _]/=.
have nE : getNumVectors cs = (k - 1)%N by [].
have hd l e : (1 <= l <= 1 + (k - 2))%N -> (e <= d)%N ->
    evalRiD dbl one nc np cs ev c e l = Ok (J l e).
  move=> h1 h2; have lk : (0 < l < k)%N by lia.
  by apply: (evalRiDE et ex) => //; [lia|exact: hphi|exact: hR].
have st : getLocalStartPoint c = P 0%N by exact: hcv.
rewrite nE; have -> : (0 < k - 1)%N by lia.
have -> : (k - 1 - 1 = k - 2)%N by lia.
apply: (@blocks_ok F _ id k _ (blk d) (fun _ _ => True)) => // j M jk _.
have [||A eA hA] := @jacobianRestE F (evalRiD dbl one nc np cs ev c)
  (fun e l => getRiDJacobianAt dbl one S L nc np cs ev c e l j) J (TJ j) j (k - 2) 1 d 1 hd.
- move=> l e h1 h2 z; apply: riJacAtE => //; [lia|exact: leq_trans d2].
- by move=> l e x z; apply: TJ_zero.
have fE : factorial d = (1 * d`!)%N by rewrite mul1n factorialE.
rewrite /ub_unless fE eA (productRestE 1 hd).
case: (eqVneq j 0%N) => [j0|jn]; do 2!eexists; split; try reflexivity; rewrite // => x _.
  by rewrite /jadd /japp /quatOPlus /quatPlus hA /blk j0 eqxx st !scale1r.
by rewrite /jadd /japp /quatPlus hA /blk (negbTE jn) st scale1r.
Qed.

Let pre l : H := \prod_(1 <= m < l) R m.
Let post l : H := \prod_(l.+1 <= m < k) R m.

Lemma sum_nat_if (V : zmodType) (f : nat -> V) m n j :
  \sum_(m <= l < n) (if l == j then f l else 0) = if (m <= j < n)%N then f j else 0.
Proof.
case: ifP => h.
  rewrite (bigD1_seq j) ?mem_index_iota ?iota_uniq //= eqxx big1 ?addr0 // => l /negbTE -> //.
rewrite big_nat_cond big1 // => l /andP[hl _]; case: eqP => // e.
by rewrite -e hl in h.
Qed.

Lemma blk0E j c : (1 < k)%N -> (j < k)%N -> blk 0 j c =
  (if j == 0%N then Vmul (@unit3 F) c * (P 0%N * \prod_(1 <= m < k) R m) else 0) +
  (if j == 0%N then 0 else P 0%N * (pre j * (RJ j 0 c * post j))) -
  (if j == (k - 1)%N then 0 else P 0%N * (pre j.+1 * (RJ j.+1 0 c * post j.+1))).
Proof.
move=> k1 jk; rewrite /blk jprod_order0 djprod_order0.
have -> : (1 + (k - 2).+1 = k)%N by lia.
rewrite -addrA; congr (_ + _); rewrite (eq_big_nat _ _
  (F2 := fun l => (if l == j then pre l * (RJ l 0 c * post l) else 0) +
                  (if l == j.+1 then - (pre l * (RJ l 0 c * post l)) else 0))); last first.
  move=> l _; rewrite /TJ eq_sym [l == j.+1]eq_sym; case: (eqVneq j l) => [->|_].
    by rewrite gtn_eqF // addr0.
  by case: eqP; rewrite ?mulNr ?mulrN ?add0r ?mul0r ?mulr0 ?addr0.
rewrite big_split /= !sum_nat_if mulrDr jk andbT lt0n; congr (_ + _).
  by case: (j == 0%N) => //=; rewrite mulr0.
have -> : (0 < j.+1 < k)%N = (j != (k - 1)%N) by lia.
by case: (j == _); rewrite ?mulr0 ?mulrN ?oppr0.
Qed.

Lemma jac0E : (1 < k)%N -> exists2 M,
  evalJacobian0 dbl one expq logq S L nc np cs ev = Ok M &
  forall j c r, (j < k)%N -> (c < 3)%N -> (r < 4)%N -> M r (j * 3 + c)%N = vec_of (blk 0 j c) r.
Proof.
move=> k1; have [c ec [hcv hphi hR]] := cache_cvE et expq logq nc gd sg npk.
rewrite /evalJacobian0 ec [obind (Ok c) _]/=; set body := (X in oloop _ _ X).
have st : getLocalStartPoint c = P 0%N by exact: hcv.
pose Inv j (x : mat F * option ((H -> H) * jac F)) := (0 < j < k)%N ->
  exists f A, [/\ x.2 = Some (f, A), A =1 RJ j 0 & forall p, f p = P 0%N * pre j * (p * post j)].
have [||[M l] -> hM] := @blocks_ok F _ fst k body (blk 0) Inv (zerom, None).
- by [].
- move=> j [M last] jk hI; rewrite /body.
  have rp from to : (0 < from <= to)%N -> (to <= k)%N ->
      getRiQuaternionProduct c from to = \prod_(from <= l < to) R l by apply: riProductE.
  set b0 := (if j == 0%N then _ else _).
  have [b [eb hb]] : exists b, (if j != 0%N then
          if last is Some (riProduct, riJ) then Ok (jadd b0 (japp riProduct riJ)) else UB
        else Ok b0) = Ok b /\ forall x, b x =
      (if j == 0%N then Vmul (@unit3 F) x * (P 0%N * \prod_(1 <= m < k) R m) else 0) +
      (if j == 0%N then 0 else P 0%N * (pre j * (RJ j 0 x * post j))).
    rewrite /b0; case: (eqVneq j 0%N) => [j0|jn] /=.
      eexists; split; first by reflexivity.
      by move=> x; rewrite addr0 /japp /quatOPlus st rp.
    have [|f [A [/= -> hA hf]]] := hI; first by rewrite lt0n jn.
    eexists; split; first by reflexivity.
    by move=> x; rewrite /jadd /japp hf hA -mulrA qaddE.
  rewrite eb [obind (Ok b) _]/=; case: (eqVneq j (k - 1)%N) => [jl|jn] /=.
    do 2!eexists; split; [reflexivity|reflexivity| |].
      by move=> x _; rewrite hb blk0E // jl eqxx subr0.
    by move=> /andP[_]; rewrite jl; lia.
  have jk' : (j.+1 < k)%N by lia.
  rewrite (riJac0E hcv hphi hR (l := j.+1)) //; set A := RJ j.+1 0.
  rewrite [obind (Ok A) _]/=; set f := (X in Some (X, A)).
  have hf p : f p = P 0%N * pre j.+1 * (p * post j.+1).
    rewrite /f /pre /post; have [e2|n2] := eqVneq j.+2 k => /=.
      rewrite [X in _ * (p * X)]big_geq ?e2 // mulr1.
      case: (eqVneq j 0%N) => [->|j0]; first by rewrite big_geq // mulr1 /quatPlus st.
      by rewrite /quatPlus st rp // ltnW.
    rewrite /quatOPlus (rp j.+2 k) //.
    case: (eqVneq j 0%N) => [e0|j0].
      rewrite e0 /= [\prod_(1 <= m < 1) _]big_geq // mulr1 /quatPlus st.
      by rewrite qplusE.
    by rewrite /quatPlus st rp // ltnW.
  exists (jadd b (jscale (-1) (japp f A))).
  exists (put_block M j (jadd b (jscale (-1) (japp f A))), Some (f, A)).
  split; [reflexivity|reflexivity| |].
    move=> x _; rewrite blk0E // (negbTE jn) /jadd hb /jscale /japp hf qaddE.
    by rewrite qscaleE scaleN1r -!mulrA.
  by move=> _; exists f, A.
by exists M.
Qed.

Lemma jac0_order1 : k = 1%N -> exists2 M,
  evalJacobian0 dbl one expq logq S L nc np cs ev = Ok M &
  forall c r, (c < 3)%N -> (r < 4)%N -> M r c = vec_of (Vmul (@unit3 F) c * P 0%N) r.
Proof.
move=> k1; have [c ec [hcv hphi hR]] := cache_cvE et expq logq nc gd sg npk.
have st : getLocalStartPoint c = P 0%N by exact: hcv.
rewrite /evalJacobian0 ec [obind (Ok c) _]/= st; move: (P 0%N) => p.
rewrite k1; eexists; first by reflexivity.
move=> x r x3 r4; rewrite -(mulr1 p).
have := put_block_same zerom 0 (japp (quatOPlus (p * 1)) (Vmul (@unit3 F))) r4 x3.
by rewrite mul0n add0n => <-; rewrite /getRiQuaternionProduct /= qplusE qoneE mulr1.
Qed.

Notation jacD := (uq_evalJacobian dbl one expq logq S L nc np cs ev).
Notation djet delta := (dual_jet dbl one expq logq S L delta k kps t i).

Lemma quat_of_eq (v : vec F) (q : H) : (forall r, (r < 4)%N -> v r = vec_of q r) -> quat_of v = q.
Proof. by case: q => a b c d h; rewrite /quat_of !h. Qed.

Lemma jacobianE d : (d <= 2)%N -> (1 < k)%N || (d == 0)%N -> exists2 M, jacD d = Ok M &
  forall delta, quat_of (jac_apply k M delta) = qdu (djet delta d).
Proof.
move=> d2; case: (leqP k 1) => [k1 /= /eqP ->|k1 _].
  have k1' : k = 1%N by apply/eqP; rewrite eqn_leq k1.
  have [M e hM] := jac0_order1 k1'; exists M => // delta.
  rewrite dual_jet_order1 //; apply: quat_of_eq => r r4.
  rewrite (@jac_applyE _ _ _ (fun _ c => Vmul (@unit3 F) c * P 0%N)) //; last first.
    by move=> j x r' jk x3 r4'; have -> : j = 0%N by [lia]; rewrite add0n hM.
  have e0 (f : nat -> H) : \sum_(j < k) f j = f 0%N by rewrite k1' big_ord1.
  by rewrite (e0 (fun j => comb (fun c => Vmul (@unit3 F) c * P 0%N) (delta j))) comb_mul comb_unit.
have [M e hM] : exists2 M, jacD d = Ok M &
    forall j c r, (j < k)%N -> (c < 3)%N -> (r < 4)%N -> M r (j * 3 + c)%N = vec_of (blk d j c) r.
  by case: d d2 => [_|d d2]; [exact: jac0E|exact: jacRecE].
exists M => // delta; rewrite -sum_blk //; apply: quat_of_eq => r r4.
exact: jac_applyE.
Qed.

Lemma jacobian_throw d : (2 < d)%N -> (1 < k)%N -> jacD d = Throw ExnSpline.
Proof.
case: d => // d d2 k1; have [c ec [hcv hphi hR]] := cache_cvE et expq logq nc gd sg npk.
rewrite /uq_evalJacobian /evalJacobianDRecursive ec [obind (Ok c) _]/=.
set body := (X in oloop _ _ X); have nE : getNumVectors cs = (k - 1)%N by [].
suff h : body 0%N zerom = Throw ExnSpline.
  have hn n : oloop 0 n.+1 body zerom = Throw ExnSpline.
    elim: n => [|n IH]; first by rewrite /oloop /floop /= h.
    by rewrite oloopSr // IH.
  by have := hn k.-1; rewrite prednK.
rewrite /body nE /ub_unless; have -> : (0 < k - 1)%N by lia.
have -> : (k - 1 - 1 = k - 2)%N by lia.
have hd l e : (1 <= l <= 1 + (k - 2))%N -> (e <= 3)%N ->
    evalRiD dbl one nc np cs ev c e l = Ok (J l e).
  move=> h1 h2; have lk : (0 < l < k)%N by lia.
  by apply: (evalRiDE et ex) => //; [exact: hphi|exact: hR].
have fE m : factorial m = (1 * m`!)%N by rewrite mul1n factorialE.
have [d3|d3] := ltnP 2 d.
  rewrite (@productRest_throw _ _ (fun l => J l 0%N) _ _ _ _ ExnSpline) //.
    by move=> l h; rewrite hd.
  by move=> l h; apply: evalRiD_throw.
have e3 : d = 2%N by lia.
rewrite e3 fE (productRestE 1 hd) mul1n.
rewrite (@jacobianRest_throw _ _ _ J (k - 2) 3 ExnSpline) //.
  move=> e e3'; have [|||A -> _] := @riJacAtE c hcv hphi hR 0 e 1; rewrite ?ltnS //; last by exists A.
by rewrite /getRiDJacobianAt /= (riJac0E hcv hphi hR).
Qed.

Lemma jacobian_ub d : k = 1%N -> (0 < d)%N -> jacD d = UB.
Proof.
case: d => // d k1 _; have [c ec _] := cache_cvE et expq logq nc gd sg npk.
rewrite /uq_evalJacobian /evalJacobianDRecursive ec [obind (Ok c) _]/= /getNumVectors.
by rewrite /= k1.
Qed.

Lemma re_djet delta d :
  qre (djet delta d) = quat_jet dbl one expq logq k kps t i d.
Proof.
rewrite /dual_jet /quat_jet; case: (k - 1)%N => [|m] /=.
  by rewrite /jconst; case: (d == 0%N); [exact: qre_dual|exact: (qmap0 (re_additive F))].
rewrite !jmul_const qreM qre_dual qre_jprod; congr (_ * _).
by apply: eq_jprod => l e; apply: qre_dJ.
Qed.
End Spline.
