(* Proofs about the BSpline model: counts, basis matrices, segment lookup, evaluation. *)
From mathcomp Require Import all_ssreflect all_algebra.
From mathcomp.algebra_tactics Require Import ring.
From mathcomp.zify Require Import zify.
From Verif Require Import Prelude CoxDeBoor CoxDeBoorProofs BSplineModel BSplineSpec.
Set Implicit Arguments.
Unset Strict Implicit.
Unset Printing Implicit Defensive.
Import GRing.Theory Num.Theory Order.Theory.
Local Open Scope ring_scope.

Lemma dmulE i d : (d <= i)%N -> dmul i d = (i ^_ d)%N.
Proof.
elim: d i => [|d IH] i di; first by rewrite ffactn0.
rewrite /= ffactnS; case: d IH di => [|d] IH di; first by rewrite ffactn0 muln1.
by rewrite IH //; lia.
Qed.

Section MProofs.
Variable F : realFieldType.
Variable t : nat -> F.

Lemma Mmat1 i r c : Mmat t 1 i r c = ((r == 0%N) && (c == 0%N))%:R.
Proof. by []. Qed.

Lemma MmatS k i r c : Mmat t k.+2 i r c =
  mulm k.+1 (fun r c => if (r < k.+1)%N then Mmat t k.+1 i r c else 0) (M_A t k.+2 i) r c
  + mulm k.+1 (fun r c => if (0 < r)%N then Mmat t k.+1 i r.-1 c else 0) (M_B t k.+2 i) r c.
Proof. by []. Qed.

(* M(k,i) reads only the knots i-k+2 .. i+k-1 (and i, i+1 when k >= 2) *)
Lemma M_ext (t' : nat -> F) k i : (k <= i.+1)%N ->
  (forall j, (i.+2 <= j + k)%N -> (j < i + k)%N -> t j = t' j) ->
  forall r c, Mmat t k i r c = Mmat t' k i r c.
Proof.
elim: k => [//|[|k] IH] ki ext r c; first by [].
rewrite !MmatS.
set k1 := k.+1 in IH ki ext *.
have e x : (x < k1)%N -> t (i + 2 + x - k1.+1)%N = t' (i + 2 + x - k1.+1)%N.
  by move=> xk; apply: ext; lia.
have e' x : (x < k1)%N -> t (i + 2 + x - k1.+1 + k1.+1 - 1)%N = t' (i + 2 + x - k1.+1 + k1.+1 - 1)%N.
  by move=> xk; apply: ext; lia.
have ei : t i = t' i by apply: ext; lia.
have ei' : t i.+1 = t' i.+1 by apply: ext; lia.
have IH' r' c' : Mmat t k1 i r' c' = Mmat t' k1 i r' c'.
  by apply: IH; [lia|move=> j h1 h2; apply: ext; lia].
congr (_ + _); apply: eq_fsum => x xk; congr (_ * _); rewrite ?IH' //.
  by rewrite /M_A /d_0 e // e' // ei.
by rewrite /M_B /d_1 e // e' // ei ei'.
Qed.

Variable N : nat.
Hypothesis t_mono : forall a b, (a <= b)%N -> (b < N)%N -> t a <= t b.
Variable i : nat.
Hypothesis seg_pos : t i < t i.+1.

Definition lin : {poly F} := (t i.+1 - t i)^-1 *: ('X - (t i)%:P).

Lemma d01_omega n j : (j <= i)%N -> (i < j + n.+1)%N -> (j + n.+1 < N)%N ->
  (d_0 t n.+2 i j)%:P + (d_1 t n.+2 i j)%:P * lin = omega t n.+1 j.
Proof.
move=> h1 h2 h3; rewrite /d_0 /d_1.
have -> : (j + n.+2 - 1 = j + n.+1)%N by lia.
have den := den_pos t_mono seg_pos h1 h2 h3.
rewrite leNgt den /=.
have nz : t (j + n.+1)%N - t j != 0 by rewrite gt_eqF.
have nz2 : t i.+1 - t i != 0 by rewrite subr_eq0 gt_eqF.
rewrite /lin /omega mul_polyC scalerA.
have -> : (t i.+1 - t i) / (t (j + n.+1)%N - t j) * (t i.+1 - t i)^-1 = (t (j + n.+1)%N - t j)^-1.
  by field; rewrite nz nz2.
by rewrite mulrC polyCM mul_polyC -scalerDr polyCB; congr (_ *: _); ring.
Qed.

Lemma Mmat_poly n c : (c <= n)%N -> (n <= i)%N -> (i + n < N)%N ->
  fsum n.+1 (fun r => Mmat t n.+1 i r c *: lin ^+ r) = basis_poly t i n (i - n + c).
Proof.
elim: n c => [|n IH] c cn ni iN.
  move: cn; rewrite leqn0 => /eqP ->.
  by rewrite /= add0r expr0 Mmat1 scale1r basis_poly0 subn0 addn0 eqxx polyC1.
set w := fun x => fsum n.+1 (fun r => Mmat t n.+1 i r x *: lin ^+ r).
have step : fsum n.+2 (fun r => Mmat t n.+2 i r c *: lin ^+ r)
   = fsum n.+1 (fun x => w x * ((M_A t n.+2 i x c)%:P + (M_B t n.+2 i x c)%:P * lin)).
  rewrite [LHS](eq_fsum (g := fun r =>
     fsum n.+1 (fun x => (if (r < n.+1)%N then Mmat t n.+1 i r x else 0) *: lin ^+ r * (M_A t n.+2 i x c)%:P
      + (if (0 < r)%N then Mmat t n.+1 i r.-1 x else 0) *: lin ^+ r * (M_B t n.+2 i x c)%:P))); last first.
    move=> r rn; rewrite MmatS -mul_polyC /mulm fsumD !fsumE polyCD !rmorph_sum /= mulrDl.
    rewrite !mulr_suml; congr (_ + _); apply: eq_bigr => x _; rewrite polyCM -mul_polyC; ring.
  rewrite exchange_fsum; apply: eq_fsum => x xn.
  rewrite fsumD mulrDr; congr (_ + _).
    rewrite [LHS]/= ltnn scale0r mul0r addr0 /w fsum_mulr -[LHS]/(fsum n.+1 _).
    by apply: eq_fsum => r rn; rewrite rn.
  rewrite fsum_recl [X in X + _]/= scale0r mul0r add0r.
  rewrite /w fsum_mulr; apply: eq_fsum => r rn.
  by rewrite exprS -!mul_polyC /=; ring.
rewrite step.
have e x : (x < n.+1)%N ->
    w x * ((M_A t n.+2 i x c)%:P + (M_B t n.+2 i x c)%:P * lin) =
    (x == c)%:R * ((1 - omega t n.+1 (i - n + x)) * basis_poly t i n (i - n + x))
    + (x == c.-1)%:R * ((0 < c)%:R * (omega t n.+1 (i - n + x) * basis_poly t i n (i - n + x))).
  move=> xn; rewrite /w IH; [|lia..]; rewrite /M_A /M_B.
  have -> : (i + 2 + x - n.+2 = i - n + x)%N by lia.
  have H : (d_0 t n.+2 i (i - n + x))%:P + (d_1 t n.+2 i (i - n + x))%:P * lin
      = omega t n.+1 (i - n + x) by apply: d01_omega; lia.
  rewrite -H; have [->|ne] := eqVneq c x.
    rewrite mul1r; have [x0|x0] := posnP x.
      by rewrite x0 /= mul0r mulr0 addr0 polyCB polyCN; ring.
    have -> : (x == x.-1) = false by lia.
    by rewrite mul0r addr0 polyCB polyCN; ring.
  rewrite mul0r add0r; have [->|ne2] := eqVneq c x.+1.
    by rewrite /= eqxx !mul1r mulrC.
  have [c0|c0] := posnP c; first by rewrite !(mul0r, mulr0, polyC0, addr0).
  have -> : (x == c.-1) = false by lia.
  by rewrite !(mul0r, mulr0, polyC0, addr0).
rewrite (eq_fsum e) fsumD !fsum_delta_if (basis_poly_rec t_mono seg_pos) //.
rewrite addrC; congr (_ + _).
  have [c0|c0] := posnP c.
    by rewrite c0 /= mul0r basis_poly_out ?mulr0 //; lia.
  have -> : (c.-1 < n.+1)%N by lia.
  have -> : (i - n.+1 + c = i - n + c.-1)%N by lia.
  by rewrite mul1r.
have -> : ((i - n.+1 + c).+1 = i - n + c)%N by lia.
case: ifP => // cn'; rewrite basis_poly_out ?mulr0 //; lia.
Qed.
End MProofs.
