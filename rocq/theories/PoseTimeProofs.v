(* Time derivatives of pose splines inside a knot interval. *)
From mathcomp Require Import all_ssreflect all_algebra.
From mathcomp.algebra_tactics Require Import ring.
From mathcomp.zify Require Import zify.
From Verif Require Import Prelude CoxDeBoor BSplineModel BSplineSpec BSplineProofs
  BSplineEvalProofs BSplinePolyProofs BSplineMoreProofs PoseModel PoseSpec DerivProofs PoseProofs.
Set Implicit Arguments.
Unset Strict Implicit.
Unset Printing Implicit Defensive.
Import GRing.Theory Num.Theory Order.Theory.
Local Open Scope ring_scope.

Section Time.
Variable F : realFieldType.

Lemma deriv_horner (p : {poly F}) x : deriv_at (fun t => p.[t]) x p^`().[x].
Proof.
elim/poly_ind: p => [|p c ih].
  by apply: deriv_ext (deriv_const 0 x) => [t|]; rewrite ?deriv0 horner0.
have hX : deriv_at (fun t : F => t) x 1.
  by apply: deriv_ext (deriv_affine 0 1 x) => // t; rewrite add0r mulr1.
have := deriv_add (deriv_mul ih hX) (deriv_const c x).
apply: deriv_ext => [t|]; first by rewrite hornerMXaddC.
rewrite derivD derivM derivX derivC !addr0 !mulr1 hornerD hornerMX; ring.
Qed.

Lemma deriv_local (f g : F -> F) x D : near x (fun t => f t = g t) -> 
  deriv_at f x D -> deriv_at g x D.
Proof.
move=> [d d0 e] H e1 e1p; have [d' d'0 H'] := H e1 e1p.
exists (Num.min d d') => [|h]; first by rewrite lt_minr d0.
rewrite lt_minr => /andP[h1 h2].
have ex : f x = g x by apply: e; rewrite subrr normr0.
by rewrite -ex -e ?H' // addrC addKr.
Qed.

Variables (eps : F) (s : bspline F).
Hypothesis wfs : wf s.
Hypothesis e0 : 0 < eps.
Hypothesis el : eps <= last_len s.
Variables (i : nat) (x : F).
Hypothesis ins : inside s i x.

Lemma inside_val t : kn s i < t < kn s i.+1 -> forall d, exists2 v, evalD eps s t d = Ok v &
  forall r, v r = (spline_piece s r i)^`(d).[t].
Proof.
case: ins => ki iN _ /andP[t1 t2].
have k2 := wf_order wfs; have hn := wf_size wfs.
have [||j [kj jN j1 j2 H]] := evalD_exact (x := t) wfs e0 el.
- apply: le_trans (ltW t1); apply: (kn_mono wfs); move: ki iN k2 hn; clear; lia.
- apply: le_trans (ltW t2) _; apply: (kn_mono wfs); move: ki iN k2 hn; clear; lia.
suff -> : i = j by [].
have [h|h|//] := ltngtP i j.
- have : kn s i.+1 <= kn s j by apply: (kn_mono wfs) => //; move: jN; clear; lia.
  by rewrite leNgt (le_lt_trans j1 t2).
have m : kn s j.+1 <= kn s i by apply: (kn_mono wfs) => //; move: iN; clear; lia.
case: j2 => [j2|[_ j2]].
  by have := lt_le_trans j2 m; rewrite ltNge (ltW t1).
by have := le_lt_trans (le_trans j2 m) t1; rewrite ltxx.
Qed.

Lemma near_inside : near x (fun t => kn s i < t < kn s i.+1).
Proof.
case: ins => _ _ /andP[x1 x2].
exists (Num.min (x - kn s i) (kn s i.+1 - x)) => [|t].
  by rewrite lt_minr !subr_gt0 x1.
rewrite lt_minr => /andP[h1 h2]; apply/andP; split.
  move: h1; rewrite ltr_norml => /andP[h1 _].
  by move: h1; rewrite opprB ltr_subl_addr subrK.
move: h2; rewrite ltr_norml => /andP[_ h2].
by move: h2; rewrite ltr_subl_addr subrK.
Qed.

Definition pw d t : vec F := if evalD6 eps s t d is Ok v then v else zerov.
Hypothesis dim6 : bs_dim s = 6%N.
Lemma pwE d : near x (fun t => evalD6 eps s t d = Ok (pw d t) /\
  forall r, pw d t r = (spline_piece s r i)^`(d).[t]).
Proof.
have [e p H] := near_inside; exists e => // t /H h.
have [v hv Hv] := inside_val h d.
by rewrite /pw /evalD6 hv /= dim6.
Qed.

Lemma near_imp (P R : F -> Prop) : (forall t, P t -> R t) -> near x P -> near x R.
Proof. by move=> H [d d0 h]; exists d => // t /h /H. Qed.
Lemma near_and (P R : F -> Prop) : near x P -> near x R -> near x (fun t => P t /\ R t).
Proof.
move=> [d d0 h] [d' d'0 h']; exists (Num.min d d') => [|t]; rewrite lt_minr ?d0 //.
by move=> /andP[/h a /h' b].
Qed.
Lemma near_self (P : F -> Prop) : near x P -> P x.
Proof. by move=> [d d0]; apply; rewrite subrr normr0. Qed.

Lemma pw_deriv d r : deriv_at (fun t => pw d t r) x (pw d.+1 x r).
Proof.
have [_ ->] := near_self (pwE d.+1).
have h := deriv_horner (spline_piece s r i)^`(d) x; rewrite derivnS.
by apply: deriv_local h; apply: near_imp (pwE d) => t [_ ->].
Qed.

Lemma position_rate d : exists2 v, evalD6 eps s x d.+1 = Ok v &
  has_rate 6 (fun t => evalD6 eps s t d) x v.
Proof.
exists (pw d.+1 x); first by have [] := near_self (pwE d.+1).
exists (pw d); first by apply: near_imp (pwE d) => t [].
by move=> r _; exact: pw_deriv.
Qed.

Variable R : rotation F.
Hypothesis Rd : rot_deriv R.
Hypothesis Rx : rot_ext R.

Lemma theta_deriv d : curve_deriv (fun t => tail3 (pw d t)) x (tail3 (pw d.+1 x)).
Proof. by move=> r _; rewrite /tail3 /get_segment; exact: pw_deriv. Qed.

Lemma orientation_rate : exists C w, [/\ orientation R eps s x = Ok C,
  angularVelocity R eps s x = Ok w
  & has_mrate 3 3 (orientation R eps s) x (fun r c => cross w (fun y => C y c) r)].
Proof.
exists (rotM R (tail3 (pw 0 x))), (mulv 3 (oppm (rotS R (tail3 (pw 0 x)))) (tail3 (pw 1 x))).
have [h0 _] := near_self (pwE 0); have [h1 _] := near_self (pwE 1).
split; first by rewrite /orientation h0.
  by rewrite /angularVelocity h0 /= h1.
exists (fun t => rotM R (tail3 (pw 0 t))).
  by apply: near_imp (pwE 0) => t [h _]; rewrite /orientation h.
move=> r c r3 c3; apply: deriv_ext (Rd (theta_deriv 0) r3 c3) => //.
have e y : mulv 3 (oppm (rotS R (tail3 (pw 0 x)))) (tail3 (pw 1 x)) y
    = - mulv 3 (rotS R (tail3 (pw 0 x))) (tail3 (pw 1 x)) y.
  by rewrite /mulv -fsumN; apply: eq_fsum => q _; rewrite mulNr.
by rewrite /turned; case: r r3 => [|[|[|r]]] // _; rewrite /cross !e; ring.
Qed.

(* the same in the body frame *)
Lemma orientation_body_rate : rot_proper R -> exists C w, [/\ orientation R eps s x = Ok C,
  angularVelocityBodyFrame R eps s x = Ok w
  & has_mrate 3 3 (orientation R eps s) x (mulm 3 C (crossMx w))].
Proof.
move=> Rp; have [C [w [hC hw [f fE fD]]]] := orientation_rate.
have [h0 _] := near_self (pwE 0); have [h1 _] := near_self (pwE 1).
move: hC; rewrite /orientation h0 /= => -[eC].
move: hw; rewrite /angularVelocity h0 /= h1 /= => -[ew].
have [o rh] := Rp (tail3 (pw 0 x)); rewrite eC in o rh.
exists C; eexists; split; first by rewrite eC.
  by rewrite /angularVelocityBodyFrame /angularBodyFrame h0 /= h1 /=; reflexivity.
rewrite eC; set w' := mulv _ _ _.
have wE y : (y < 3)%N -> w' y = mulv 3 (trm C) w y.
  move=> y3; rewrite /w' /mulv /mulm.
  rewrite (eq_fsum (g := fun q => fsum 3 (fun a => C a y * (oppm (rotS R (tail3 (pw 0 x))) a q
     * tail3 (pw 1 x) q)))); last first.
    by move=> q _; rewrite fsum_mulr; apply: eq_fsum => a _; rewrite /oppm /trm; ring.
  rewrite exchange_fsum; apply: eq_fsum => a _; rewrite -fsum_mull; congr (_ * _).
  by rewrite -ew.
exists f => // r c r3 c3; apply: deriv_ext (fD r c r3 c3) => //.
have co := @cross_rot _ C w (fun y => C y c) r o rh r3.
rewrite /mulm.
have oc := orthonormalC o.
have E : fsum 3 (fun y => C r y * cross (mulv 3 (trm C) w) (mulv 3 (trm C) (fun y => C y c)) y)
   = cross w (fun y => C y c) r.
  rewrite (eq_fsum (g := fun y => fsum 3 (fun z => C r y * C z y * cross w (fun y => C y c) z))).
    rewrite exchange_fsum (eq_fsum (g := fun z => (z == r)%:R * cross w (fun y => C y c) z)).
      by rewrite fsum_delta.
    by move=> z z3; rewrite -fsum_mulr eq_sym -(oc _ _ r3 z3).
  move=> y y3; rewrite (@cross_rot _ C w (fun y => C y c) y o rh y3).
  by rewrite /mulv fsum_mull; apply: eq_fsum => z _; rewrite /trm mulrA.
rewrite -E; apply: eq_fsum => y y3; congr (_ * _).
have d z : (z < 3)%N -> mulv 3 (trm C) (fun y => C y c) z = (z == c)%:R.
  by move=> z3; rewrite -(o _ _ z3 c3).
move: d; by case: y y3 => [|[|[|y]]] // _; case: c c3 {co E fD} => [|[|[|c]]] // _ d;
  rewrite /cross /crossMx /= ?d // ?wE //=; ring.
Qed.

(* the derivative of the angular velocity that the code reports *)
Lemma angular_rate : rot_av R -> exists v0 v1 v2,
  [/\ evalD6 eps s x 0 = Ok v0, evalD6 eps s x 1 = Ok v1, evalD6 eps s x 2 = Ok v2
  & has_rate 3 (angularVelocity R eps s) x (fun r =>
      - fsum 3 (fun y => (rotAV R (tail3 v0) (tail3 v1)).2 r y * v1 (3 + y)%N
               + (rotAV R (tail3 v0) (tail3 v1)).2 r (3 + y)%N * v2 (3 + y)%N))].
Proof.
move=> [_ Rav].
have [h0 _] := near_self (pwE 0); have [h1 _] := near_self (pwE 1).
have [h2 _] := near_self (pwE 2).
exists (pw 0 x), (pw 1 x), (pw 2 x); split=> //.
exists (fun t => mulv 3 (oppm (rotS R (tail3 (pw 0 t)))) (tail3 (pw 1 t))).
  by apply: near_imp (near_and (pwE 0) (pwE 1)) => t [[a _] [b _]];
    rewrite /angularVelocity a /= b.
move=> r r3; apply: deriv_ext (deriv_opp (Rav _ _ _ _ _ (theta_deriv 0) (theta_deriv 1) r r3)).
  by move=> t; rewrite /mulv -fsumN; apply: eq_fsum => q _; rewrite mulNr.
by rewrite -fsumD.
Qed.

Lemma near_S (w : vec F) (p q : vec F) r : rot_av R -> (r < 3)%N ->
  fsum 3 (fun y => (rotAV R p q).2 r (3 + y)%N * w y) = mulv 3 (rotS R p) w r.
Proof.
move=> [_ Rav] r3.
have c1 : curve_deriv (fun=> p) 0 zerov by move=> j _; exact: deriv_const.
have c2 : curve_deriv (fun h j => q j + h * w j) 0 w by move=> j _; exact: deriv_affine.
have H := Rav _ _ _ _ _ c1 c2 r r3.
have H' : deriv_at (fun h => mulv 3 (rotS R p) (fun j => q j + h * w j) r) 0
   (mulv 3 (rotS R p) w r).
  apply: deriv_ext (deriv_affine (mulv 3 (rotS R p) q r) _ 0) => // h.
  by rewrite /mulv fsum_mull -fsumD; apply: eq_fsum => j _; ring.
have e := deriv_uniq H' H; rewrite e.
set o0 := fsum 3 (fun y => _ * zerov y); have -> : o0 = 0.
  by apply: fsum0 => y _; rewrite mulr0.
rewrite add0r.
set o := (fun j : nat => q j + 0 * w j).
have eo : eqv 3 o q by move=> j _; rewrite /o mul0r addr0.
have ep : eqv 3 p p by [].
have [_ E] := rotAV_ext Rx ep eo.
by apply: eq_fsum => y y3; rewrite E.
Qed.

(* body-frame angular velocity: its time derivative is what angularAccelerationBodyFrame
   returns minus C^T times the part coming from the change of S *)
Lemma angular_body_rate : rot_proper R -> rot_av R -> exists C v0 v1 a,
  [/\ orientation R eps s x = Ok C, evalD6 eps s x 0 = Ok v0, evalD6 eps s x 1 = Ok v1,
      angularAccelerationBodyFrame R eps s x = Ok a
  & has_rate 3 (angularVelocityBodyFrame R eps s) x (fun r => a r -
      mulv 3 (trm C) (mulv 3 (rotAV R (tail3 v0) (tail3 v1)).2 (tail3 v1)) r)].
Proof.
move=> Rp Ra; have [_ Rav] := Ra.
have [h0 _] := near_self (pwE 0); have [h1 _] := near_self (pwE 1).
have [h2 _] := near_self (pwE 2).
exists (rotM R (tail3 (pw 0 x))), (pw 0 x), (pw 1 x).
eexists; split; rewrite ?/orientation ?h0 ?h1 //=.
  by rewrite /angularAccelerationBodyFrame /angularBodyFrame h0 /= h2 /=; reflexivity.
exists (fun t => mulv 3 (mulm 3 (oppm (trm (rotM R (tail3 (pw 0 t))))) (rotS R (tail3 (pw 0 t))))
    (tail3 (pw 1 t))).
  by apply: near_imp (near_and (pwE 0) (pwE 1)) => t [[a _] [b _]];
    rewrite /angularVelocityBodyFrame /angularBodyFrame a /= b.
move=> r r3; set C := rotM R _; set S := rotS R _.
have dC y (y3 : (y < 3)%N) := Rd (theta_deriv 0) y3 r3.
have dS y (y3 : (y < 3)%N) := Rav _ _ _ _ _ (theta_deriv 0) (theta_deriv 1) y y3.
have := deriv_sum (n := 3) (fun y y3 => deriv_opp (deriv_mul (dC y y3) (dS y y3))).
apply: deriv_ext => [t|].
  by rewrite /mulv /mulm /oppm /trm /=; ring.
set w := mulv 3 S (tail3 (pw 1 x)).
rewrite (eq_fsum (g := fun y => - (turned w C y r * w y) + (- C y r * mulv 3 S (tail3 (pw 2 x)) y
   - C y r * mulv 3 (rotAV R (tail3 (pw 0 x)) (tail3 (pw 1 x))).2 (tail3 (pw 1 x)) y))); last first.
  by move=> y y3; rewrite near_S // -/C -/S /mulv; ring.
rewrite fsumD fsumB.
have -> : fsum 3 (fun y => - (turned w C y r * w y)) = 0.
  by rewrite /= /turned /cross /=; ring.
rewrite add0r; congr (_ - _); rewrite /mulv /mulm /oppm /trm /=; ring.
Qed.
End Time.
