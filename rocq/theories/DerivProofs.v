(* Rules for the epsilon-delta derivative. *)
From mathcomp Require Import all_ssreflect all_algebra.
From mathcomp.algebra_tactics Require Import ring.
From mathcomp.zify Require Import zify.
From Verif Require Import Prelude BSplineModel PoseModel PoseSpec.
Set Implicit Arguments.
Unset Strict Implicit.
Unset Printing Implicit Defensive.
Import GRing.Theory Num.Theory Order.Theory.
Local Open Scope ring_scope.

Section Deriv.
Variable F : realFieldType.
Implicit Types (f g : F -> F) (x D : F).

Lemma deriv_ext f g x D D' : (forall y, f y = g y) -> D = D' ->
  deriv_at f x D -> deriv_at g x D'.
Proof.
by move=> e <- h e0 p; have [d d0 H] := h e0 p; exists d => // y yd; rewrite -!e H.
Qed.

Lemma deriv_affine a b x : deriv_at (fun h => a + h * b) x b.
Proof.
move=> e e0; exists 1 => // h _.
have -> : a + (x + h) * b - (a + x * b) - b * h = 0 by ring.
by rewrite normr0 mulr_ge0 // ltW.
Qed.

Lemma deriv_const a x : deriv_at (fun=> a) x 0.
Proof. by apply: deriv_ext (deriv_affine a 0 x) => // y; rewrite mulr0 addr0. Qed.

Lemma deriv_add f g x D E : deriv_at f x D -> deriv_at g x E ->
  deriv_at (fun h => f h + g h) x (D + E).
Proof.
move=> hf hg e e0; have e2 : 0 < e / 2%:R by rewrite divr_gt0 // ltr0n.
have [d d0 H] := hf _ e2; have [d' d0' H'] := hg _ e2.
exists (Num.min d d'); first by rewrite lt_minr d0 d0'.
move=> h; rewrite lt_minr => /andP[h1 h2].
have -> : f (x + h) + g (x + h) - (f x + g x) - (D + E) * h
  = (f (x + h) - f x - D * h) + (g (x + h) - g x - E * h) by ring.
apply: le_trans (ler_norm_add _ _) _.
apply: le_trans (ler_add (H _ h1) (H' _ h2)) _.
by rewrite -mulrDl -mulrDl -mulr2n -[e *+ 2]mulr_natr mulfK ?pnatr_eq0.
Qed.

Lemma deriv_opp f x D : deriv_at f x D -> deriv_at (fun h => - f h) x (- D).
Proof.
move=> hf e e0; have [d d0 H] := hf _ e0; exists d => // h hd.
have -> : - f (x + h) - - f x - - D * h = - (f (x + h) - f x - D * h) by ring.
by rewrite normrN H.
Qed.

Lemma deriv_sub f g x D E : deriv_at f x D -> deriv_at g x E ->
  deriv_at (fun h => f h - g h) x (D - E).
Proof. by move=> hf hg; exact: deriv_add hf (deriv_opp hg). Qed.

(* continuity, in the Lipschitz form *)
Lemma deriv_lip f x D : deriv_at f x D -> exists2 d, 0 < d &
  forall h, `|h| < d -> `|f (x + h) - f x| <= (`|D| + 1) * `|h|.
Proof.
move=> hf; have [d d0 H] := hf 1 ltr01; exists d => // h hd.
have -> : f (x + h) - f x = (f (x + h) - f x - D * h) + D * h by ring.
apply: le_trans (ler_norm_add _ _) _; rewrite normrM mulrDl addrC ler_add2l; exact: H.
Qed.

Lemma deriv_mul f g x D E : deriv_at f x D -> deriv_at g x E ->
  deriv_at (fun h => f h * g h) x (D * g x + f x * E).
Proof.
move=> hf hg e e0.
have [d1 p1 H1] := deriv_lip hf; have [d1' p1' H1'] := deriv_lip hg.
pose K := `|g x| + `|f x| + (`|D| + 1) * (`|E| + 1) + 1.
have K0 : 0 < K.
  by rewrite ltr_spaddr // ?ltr01 // !addr_ge0 // mulr_ge0 // addr_ge0.
have eK : 0 < e / K by rewrite divr_gt0.
have [d2 p2 H2] := hf _ eK; have [d2' p2' H2'] := hg _ eK.
exists (Num.min (Num.min d1 d1') (Num.min (Num.min d2 d2') (e / K))).
  by rewrite !lt_minr p1 p1' p2 p2' eK.
move=> h; rewrite !lt_minr => /andP[/andP[a1 a2] /andP[/andP[a3 a4] a5]].
have -> : f (x + h) * g (x + h) - f x * g x - (D * g x + f x * E) * h
  = (f (x + h) - f x - D * h) * g x + f x * (g (x + h) - g x - E * h)
    + (f (x + h) - f x) * (g (x + h) - g x) by ring.
apply: le_trans (ler_norm_add _ _) _.
apply: le_trans (ler_add (ler_norm_add _ _) (lexx _)) _; rewrite !normrM.
have h0 := normr_ge0 h.
have b1 : `|f (x + h) - f x - D * h| * `|g x| <= e / K * `|h| * `|g x|.
  by apply: ler_wpmul2r => //; exact: H2.
have b2 : `|f x| * `|g (x + h) - g x - E * h| <= `|f x| * (e / K * `|h|).
  by apply: ler_wpmul2l => //; exact: H2'.
have b3 : `|f (x + h) - f x| * `|g (x + h) - g x|
    <= (`|D| + 1) * `|h| * ((`|E| + 1) * `|h|).
  by apply: ler_pmul => //; [exact: H1|exact: H1'].
have b4 : (`|D| + 1) * `|h| * ((`|E| + 1) * `|h|) <= (`|D| + 1) * (`|E| + 1) * (e / K * `|h|).
  have -> : (`|D| + 1) * `|h| * ((`|E| + 1) * `|h|)
      = (`|D| + 1) * (`|E| + 1) * (`|h| * `|h|) by ring.
  apply: ler_wpmul2l; first by rewrite mulr_ge0 // addr_ge0.
  by apply: ler_wpmul2r => //; exact: ltW.
apply: le_trans (ler_add (ler_add b1 b2) (le_trans b3 b4)) _.
have -> : e / K * `|h| * `|g x| + `|f x| * (e / K * `|h|) + (`|D| + 1) * (`|E| + 1) * (e / K * `|h|)
  = (K - 1) * (e / K * `|h|) by rewrite /K; ring.
have -> : e * `|h| = K * (e / K * `|h|).
  by rewrite mulrA [K * _]mulrC mulfVK // gt_eqF.
apply: ler_wpmul2r; first by rewrite mulr_ge0 // ltW.
by rewrite ler_subl_addr ler_addl ler01.
Qed.

Lemma deriv_sum n (f : nat -> F -> F) (D : nat -> F) x :
  (forall i, (i < n)%N -> deriv_at (f i) x (D i)) ->
  deriv_at (fun h => fsum n (fun i => f i h)) x (fsum n D).
Proof.
elim: n => [|n IH] H /=; first exact: deriv_const.
apply: deriv_add; last exact: H.
by apply: IH => i i1; apply: H; exact: ltnW.
Qed.

(* derivatives are unique *)
Lemma deriv_uniq f x D E : deriv_at f x D -> deriv_at f x E -> D = E.
Proof.
move=> hD hE; apply/eqP; rewrite -subr_eq0; apply/negPn/negP => ne.
have e0 : 0 < `|D - E| / 3%:R by rewrite divr_gt0 ?normr_gt0 // ltr0n.
have [d d0 H] := hD _ e0; have [d' d0' H'] := hE _ e0.
pose m := Num.min d d' / 2%:R.
have m0 : 0 < m by rewrite divr_gt0 ?ltr0n // lt_minr d0 d0'.
have mm : m < Num.min d d'.
  rewrite ltr_pdivr_mulr ?ltr0n // ltr_pmulr ?ltr1n //.
  by rewrite lt_minr d0 d0'.
have nm : `|m| = m by rewrite ger0_norm // ltW.
move: (mm); rewrite lt_minr => /andP[m1 m2].
have a := H m; have b := H' m; rewrite nm in a b.
have {a b} : `|(D - E) * m| <= (`|D - E| / 3%:R) * m + (`|D - E| / 3%:R) * m.
  have -> : (D - E) * m = (f (x + m) - f x - E * m) - (f (x + m) - f x - D * m) by ring.
  apply: le_trans (ler_norm_sub _ _) _.
  by apply: ler_add; [exact: b|exact: a].
rewrite normrM nm -mulrDl ler_pmul2r // -mulr2n leNgt => /negP; apply.
have -> : (`|D - E| / 3%:R) *+ 2 = `|D - E| * (2%:R / 3%:R) by rewrite -mulr_natr; ring.
rewrite gtr_pmulr ?normr_gt0 //.
by rewrite ltr_pdivr_mulr ?ltr0n // mul1r ltr_nat.
Qed.
End Deriv.
