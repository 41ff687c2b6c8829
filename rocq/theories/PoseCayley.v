(* A concrete rotation parameterisation (Cayley / Gibbs parameters, the rational one) that
   satisfies everything the pose theorems assume of a parameterisation.  Used by examples
   and counter-examples only. *)
From mathcomp Require Import all_ssreflect all_algebra.
From mathcomp.algebra_tactics Require Import ring.
From mathcomp.zify Require Import zify.
From Verif Require Import Prelude BSplineModel PoseModel PoseSpec DerivProofs.
Set Implicit Arguments.
Unset Strict Implicit.
Unset Printing Implicit Defensive.
Import GRing.Theory Num.Theory Order.Theory.
Local Open Scope ring_scope.

Section Cayley.
Variable F : realFieldType.
Implicit Types p q d : vec F.

Definition nrm2 p : F := p 0%N ^+ 2 + p 1%N ^+ 2 + p 2%N ^+ 2.
Definition cc p : F := 2%:R / (1 + nrm2 p).
Definition cayM p : mat F := fun r c =>
  match r, c with
  | 0, 0 => 1 - cc p * (p 1%N ^+ 2 + p 2%N ^+ 2)
  | 0, 1 => cc p * (p 0%N * p 1%N + p 2%N)
  | 0, 2 => cc p * (p 0%N * p 2%N - p 1%N)
  | 1, 0 => cc p * (p 0%N * p 1%N - p 2%N)
  | 1, 1 => 1 - cc p * (p 0%N ^+ 2 + p 2%N ^+ 2)
  | 1, 2 => cc p * (p 1%N * p 2%N + p 0%N)
  | 2, 0 => cc p * (p 0%N * p 2%N + p 1%N)
  | 2, 1 => cc p * (p 1%N * p 2%N - p 0%N)
  | 2, 2 => 1 - cc p * (p 0%N ^+ 2 + p 1%N ^+ 2)
  | _, _ => 0
  end.
Definition cayS p : mat F := fun r c => cc p * (eyem r c - crossMx p r c).
Definition cayP (C : mat F) : vec F :=
  let w := 1 + C 0%N 0%N + C 1%N 1%N + C 2%N 2%N in fun i =>
  match i with
  | 0 => (C 1%N 2%N - C 2%N 1%N) / w
  | 1 => (C 2%N 0%N - C 0%N 2%N) / w
  | _ => (C 0%N 1%N - C 1%N 0%N) / w
  end.
Definition cayAV p q : vec F * mat F :=
  (mulv 3 (cayS p) q,
   fun r c => if (c < 3)%N then cc p * crossMx q r c - cc p * mulv 3 (cayS p) q r * p c
              else cayS p r (c - 3)%N).
Definition cayley : rotation F := Rotation cayM cayS cayP cayAV.

Lemma den_pos p : 0 < 1 + nrm2 p.
Proof. by rewrite /nrm2 ltr_spaddl ?ltr01 // !addr_ge0 // sqr_ge0. Qed.
Lemma den_neq p : 1 + nrm2 p != 0.
Proof. by rewrite gt_eqF // den_pos. Qed.
Lemma cc_den p : cc p * (1 + nrm2 p) = 2%:R.
Proof. by rewrite /cc mulfVK // den_neq. Qed.

(* derivative of the reciprocal of g >= 1 *)
Lemma deriv_inv (g : F -> F) x E : (forall y, 1 <= g y) -> deriv_at g x E ->
  deriv_at (fun y => (g y)^-1) x (- E * (g x)^-1 ^+ 2).
Proof.
move=> g1 hg; have g0 y : g y != 0 by rewrite gt_eqF // (lt_le_trans ltr01).
have q1 y : `|(g y)^-1| <= 1.
  rewrite normrV ?unitfE // ger0_norm ?(le_trans ler01) //.
  by rewrite invf_le1 // (lt_le_trans ltr01).
move=> e e0; have [d d0 H] := hg (e / 2%:R) (divr_gt0 e0 (ltr0Sn _ 1)).
have [d' d0' H'] := deriv_lip hg.
pose K := (`|E| + 1) * (`|E| + 1).
have K0 : 0 < K by rewrite mulr_gt0 // ltr_spaddr // ltr01.
exists (Num.min (Num.min d d') (e / 2%:R / K)).
  by rewrite !lt_minr d0 d0' !divr_gt0 // ltr0n.
move=> h; rewrite !lt_minr => /andP[/andP[h1 h2] h3].
set gx := g x; set gh := g (x + h).
have -> : gh^-1 - gx^-1 - - E * gx^-1 ^+ 2 * h
   = - gx^-1 ^+ 2 * (gh - gx - E * h) + gh^-1 * (gx^-1 ^+ 2 * (gh - gx) ^+ 2).
  rewrite /gx /gh; field; by rewrite !g0.
apply: le_trans (ler_norm_add _ _) _.
have b1 : `|- gx^-1 ^+ 2 * (gh - gx - E * h)| <= e / 2%:R * `|h|.
  rewrite normrM normrN normrX; apply: le_trans (H _ h1).
  rewrite ler_pimull //; apply: exprn_ile1 => //; exact: q1.
have b2 : `|gh^-1 * (gx^-1 ^+ 2 * (gh - gx) ^+ 2)| <= e / 2%:R * `|h|.
  rewrite normrM normrM !normrX.
  have a1 : `|gx^-1| ^+ 2 <= 1 by apply: exprn_ile1 => //; exact: q1.
  have a2 : `|gh - gx| ^+ 2 <= K * `|h| ^+ 2.
    rewrite /K -expr2 -exprMn; apply: ler_expn2r; rewrite ?nnegrE //; last exact: H'.
    by rewrite mulr_ge0 // addr_ge0.
  apply: (@le_trans _ _ (`|gh - gx| ^+ 2)).
    apply: (@le_trans _ _ (1 * (1 * `|gh - gx| ^+ 2))); last by rewrite !mul1r.
    apply: ler_pmul => //; [by rewrite mulr_ge0 // exprn_ge0|exact: q1|].
    by apply: ler_wpmul2r => //; rewrite exprn_ge0.
  apply: le_trans a2 _; rewrite expr2 mulrA; apply: ler_wpmul2r => //.
  by rewrite mulrC -ler_pdivl_mulr // ltW.
apply: le_trans (ler_add b1 b2) _.
by rewrite -mulrDl -mulrDl -mulr2n -[e *+ 2]mulr_natr mulfK // pnatr_eq0.
Qed.

Lemma cay_ortho p : orthonormal (cayM p).
Proof.
have h := cc_den p; have n := den_neq p; rewrite /nrm2 in h n.
have c2 : cc p = 2%:R / (1 + (p 0%N ^+ 2 + p 1%N ^+ 2 + p 2%N ^+ 2)) by [].
by case=> [|[|[|a]]] [|[|[|b]]] // _ _; rewrite /= /cayM c2; field.
Qed.

Lemma cay_right p : right_handed (cayM p).
Proof.
have n := den_neq p; rewrite /nrm2 in n.
have c2 : cc p = 2%:R / (1 + (p 0%N ^+ 2 + p 1%N ^+ 2 + p 2%N ^+ 2)) by [].
by case=> [|[|[|a]]] // _; rewrite /cross /cayM c2; field.
Qed.

Lemma cay_proper : rot_proper cayley.
Proof. by move=> p; split; [exact: cay_ortho|exact: cay_right]. Qed.

Lemma cc_ext p q : eqv 3 p q -> cc p = cc q.
Proof. by move=> h; rewrite /cc /nrm2 !h. Qed.

Lemma cay_ext : rot_ext cayley.
Proof.
split=> [p q h|p q h|p q p' q' h h'].
- by case=> [|[|[|a]]] [|[|[|b]]] // _ _; rewrite /= /cayM (cc_ext h) ?h.
- by case=> [|[|[|a]]] [|[|[|b]]] // _ _; rewrite /= /cayS (cc_ext h) /crossMx ?h.
have hS : eqm 3 3 (cayS p) (cayS q).
  by case=> [|[|[|a]]] [|[|[|b]]] // _ _; rewrite /= /cayS (cc_ext h) /crossMx ?h.
have hv : eqv 3 (mulv 3 (cayS p) p') (mulv 3 (cayS q) q').
  by move=> r r3; apply: eq_fsum => i i3; rewrite hS // h'.
split=> // r c r3 c6 /=; case: ifP => c3.
  by rewrite (cc_ext h) hv // h //; case: r r3 => [|[|[|r]]] // _;
     case: c c3 {c6} => [|[|[|c]]] // _; rewrite /crossMx ?h'.
by rewrite hS //; move: c6 c3; clear; lia.
Qed.

(* derivatives along a curve *)
Section Curve.
Variables (p : F -> vec F) (x : F) (d : vec F).
Hypothesis hd : curve_deriv p x d.

Lemma cc_deriv : deriv_at (fun h => cc (p h)) x
  (- cc (p x) ^+ 2 * (p x 0%N * d 0%N + p x 1%N * d 1%N + p x 2%N * d 2%N)).
Proof.
pose g h := 1 + nrm2 (p h).
have g1 h : 1 <= g h by rewrite /g /nrm2 ler_addl !addr_ge0 // sqr_ge0.
have sq i (i3 : (i < 3)%N) := deriv_mul (hd i3) (hd i3).
have hg : deriv_at g x (2%:R * (p x 0%N * d 0%N + p x 1%N * d 1%N + p x 2%N * d 2%N)).
  have := deriv_add (deriv_const 1 x) (deriv_add (deriv_add (sq 0%N isT) (sq 1%N isT)) (sq 2%N isT)).
  apply: deriv_ext => [h|]; first by rewrite /g /nrm2 !expr2.
  ring.
have := deriv_mul (deriv_const 2%:R x) (deriv_inv g1 hg).
apply: deriv_ext => //.
have -> : g x = 1 + nrm2 (p x) by [].
rewrite /cc; move: (den_neq (p x)) => n; by field.
Qed.

Lemma cay_deriv_curve r c : (r < 3)%N -> (c < 3)%N ->
  deriv_at (fun h => cayM (p h) r c) x (turned (mulv 3 (cayS (p x)) d) (cayM (p x)) r c).
Proof.
move=> r3 c3.
have l i (i3 : (i < 3)%N) := hd i3.
have m i j (i3 : (i < 3)%N) (j3 : (j < 3)%N) := deriv_mul (l i i3) (l j j3).
have k (f : F -> F) D (hf : deriv_at f x D) := deriv_mul cc_deriv hf.
have one := deriv_const (1 : F) x.
have n := den_neq (p x); rewrite /nrm2 in n.
have c2 : cc (p x) = 2%:R / (1 + (p x 0%N ^+ 2 + p x 1%N ^+ 2 + p x 2%N ^+ 2)) by [].
have fin (f : F -> F) (D D' : F) (g : F -> F) : deriv_at f x D -> (forall y, f y = g y) ->
  D = D' -> deriv_at g x D' by move=> a b e; exact: deriv_ext a.
have m00 := m 0%N 0%N isT isT; have m01 := m 0%N 1%N isT isT; have m02 := m 0%N 2%N isT isT.
have m11 := m 1%N 1%N isT isT; have m12 := m 1%N 2%N isT isT; have m22 := m 2%N 2%N isT isT.
have l0 := l 0%N isT; have l1 := l 1%N isT; have l2 := l 2%N isT.
case: r r3 => [|[|[|r]]] // _; case: c c3 => [|[|[|c]]] // _.
- apply: fin (deriv_sub one (k _ _ (deriv_add m11 m22))) _ _ => [y|];
    first by rewrite /= -!expr2.
  by rewrite /turned /cross /mulv /= /cayS /eyem /crossMx /= c2; field.
- apply: fin (k _ _ (deriv_add m01 l2)) _ _ => //.
  by rewrite /turned /cross /mulv /= /cayS /eyem /crossMx /= c2; field.
- apply: fin (k _ _ (deriv_sub m02 l1)) _ _ => //.
  by rewrite /turned /cross /mulv /= /cayS /eyem /crossMx /= c2; field.
- apply: fin (k _ _ (deriv_sub m01 l2)) _ _ => //.
  by rewrite /turned /cross /mulv /= /cayS /eyem /crossMx /= c2; field.
- apply: fin (deriv_sub one (k _ _ (deriv_add m00 m22))) _ _ => [y|];
    first by rewrite /= -!expr2.
  by rewrite /turned /cross /mulv /= /cayS /eyem /crossMx /= c2; field.
- apply: fin (k _ _ (deriv_add m12 l0)) _ _ => //.
  by rewrite /turned /cross /mulv /= /cayS /eyem /crossMx /= c2; field.
- apply: fin (k _ _ (deriv_add m02 l1)) _ _ => //.
  by rewrite /turned /cross /mulv /= /cayS /eyem /crossMx /= c2; field.
- apply: fin (k _ _ (deriv_sub m12 l0)) _ _ => //.
  by rewrite /turned /cross /mulv /= /cayS /eyem /crossMx /= c2; field.
apply: fin (deriv_sub one (k _ _ (deriv_add m00 m11))) _ _ => [y|];
    first by rewrite /= -!expr2.
by rewrite /turned /cross /mulv /= /cayS /eyem /crossMx /= c2; field.
Qed.
End Curve.

Lemma cay_deriv : rot_deriv cayley.
Proof. by move=> th x d h r c r3 c3; exact: cay_deriv_curve. Qed.

Lemma cayS_mul p q r : (r < 3)%N -> mulv 3 (cayS p) q r = cc p * (q r - cross p q r).
Proof.
by case: r => [|[|[|r]]] // _; rewrite /mulv /= /cayS /eyem /crossMx /cross /=; ring.
Qed.

Lemma cay_av : rot_av cayley.
Proof.
split=> // p q x dp dq hp hq r r3.
have m i j (i3 : (i < 3)%N) (j3 : (j < 3)%N) := deriv_mul (hp i i3) (hq j j3).
have hc : deriv_at (fun h => cross (p h) (q h) r) x (cross dp (q x) r + cross (p x) dq r).
  case: r r3 => [|[|[|r]]] // _; rewrite /cross.
  - apply: deriv_ext (deriv_sub (m 1%N 2%N isT isT) (m 2%N 1%N isT isT)) => //; ring.
  - apply: deriv_ext (deriv_sub (m 2%N 0%N isT isT) (m 0%N 2%N isT isT)) => //; ring.
  apply: deriv_ext (deriv_sub (m 0%N 1%N isT isT) (m 1%N 0%N isT isT)) => //; ring.
have := deriv_mul (cc_deriv hp) (deriv_sub (hq r r3) hc).
apply: deriv_ext => [h|]; first by rewrite cayS_mul.
have e : fsum 3 (fun y => (cayAV (p x) (q x)).2 r (3 + y)%N * dq y)
   = cc (p x) * (dq r - cross (p x) dq r).
  by rewrite -cayS_mul //; apply: eq_fsum => i i3; rewrite /= addKn.
rewrite -[rotAV _ _ _]/(cayAV (p x) (q x)) e /= cayS_mul //.
by case: r r3 {hc e} => [|[|[|r]]] // _; rewrite /crossMx /cross /=; ring.
Qed.

(* round trip *)
Lemma cay_round p C : eqm 3 3 C (cayM p) -> eqv 3 (cayP C) p.
Proof.
move=> h; have n := den_neq p; rewrite /nrm2 in n.
have c2 : cc p = 2%:R / (1 + (p 0%N ^+ 2 + p 1%N ^+ 2 + p 2%N ^+ 2)) by [].
have c0 : cc p != 0 by rewrite c2 mulf_neq0 ?invr_eq0 // pnatr_eq0.
have w : 1 + C 0%N 0%N + C 1%N 1%N + C 2%N 2%N = 2%:R * cc p.
  by rewrite !h // /cayM c2; field.
have t0 : 2%:R != 0 :> F by rewrite pnatr_eq0.
by case=> [|[|[|a]]] // _; rewrite /cayP w !h // /cayM; field; rewrite c0.
Qed.
End Cayley.
