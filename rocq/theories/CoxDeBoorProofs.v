(* Facts about the Cox-de Boor basis. *)
From mathcomp Require Import all_ssreflect all_algebra.
From mathcomp.algebra_tactics Require Import ring.
From mathcomp.zify Require Import zify.
From Verif Require Import Prelude CoxDeBoor.
Set Implicit Arguments.
Unset Strict Implicit.
Unset Printing Implicit Defensive.
Import GRing.Theory Num.Theory Order.Theory.
Local Open Scope ring_scope.

Section Basis.
Variable F : realFieldType.
Variable t : nat -> F.
Variable N : nat.
Hypothesis t_mono : forall a b, (a <= b)%N -> (b < N)%N -> t a <= t b.

Section Segment.
Variable i : nat.
Local Notation b := (basis_poly t i).

Lemma basis_poly0 j : b 0 j = ((i == j)%:R)%:P. Proof. by []. Qed.

Lemma basis_polyS n j : b n.+1 j =
    (t (j + n.+1)%N - t j)^-1 *: (('X - (t j)%:P) * b n j)
    + (t (j + n.+2)%N - t j.+1)^-1 *: (((t (j + n.+2)%N)%:P - 'X) * b n j.+1).
Proof. by []. Qed.

Lemma basis_poly_out n j : ~~ ((j <= i)%N && (i <= j + n)%N) -> b n j = 0.
Proof.
elim: n j => [|n IH] j h.
  rewrite basis_poly0; have /negbTE -> : i != j by lia.
  by rewrite polyC0.
rewrite basis_polyS !IH ?mulr0 ?scaler0 ?addr0 //; lia.
Qed.

Hypothesis seg_pos : t i < t i.+1.

Lemma den_pos j m : (j <= i)%N -> (i < j + m)%N -> (j + m < N)%N ->
  0 < t (j + m)%N - t j.
Proof.
move=> ji im mN; rewrite subr_gt0; apply: le_lt_trans (t_mono ji _) _; first by lia.
by apply: lt_le_trans seg_pos _; apply: t_mono; lia.
Qed.

Lemma den_neq0 j m : (j <= i)%N -> (i < j + m)%N -> (j + m < N)%N ->
  t (j + m)%N - t j != 0.
Proof. by move=> *; rewrite gt_eqF // den_pos. Qed.

(* weights of the two terms add up to one where both functions are supported *)
Lemma omegaD j n : (j <= i)%N -> (i < j + n)%N -> (j + n < N)%N ->
  (t (j + n)%N - t j)^-1 *: ((t (j + n)%N)%:P - 'X)
  = 1 - (t (j + n)%N - t j)^-1 *: ('X - (t j)%:P) :> {poly F}.
Proof.
move=> h1 h2 h3; have nz := den_neq0 h1 h2 h3.
apply/eqP; rewrite eq_sym subr_eq -scalerDr.
have -> : ((t (j + n)%N)%:P - 'X) + ('X - (t j)%:P) = (t (j + n)%N - t j)%:P :> {poly F}.
  by rewrite polyCB; ring.
by rewrite -mul_polyC -polyCM mulVf.
Qed.

Definition omega n j : {poly F} := (t (j + n)%N - t j)^-1 *: ('X - (t j)%:P).

(* recursion with complementary weights *)
Lemma basis_poly_rec n j : (i + n.+1 < N)%N ->
  b n.+1 j = omega n.+1 j * b n j + (1 - omega n.+1 j.+1) * b n j.+1.
Proof.
move=> iN; rewrite basis_polyS /omega !scalerAl; congr (_ + _).
have [/andP[h1 h2]|h] := boolP ((j.+1 <= i)%N && (i <= j.+1 + n)%N); last first.
  by rewrite (basis_poly_out h) !mulr0.
have -> : (j + n.+2 = j.+1 + n.+1)%N by lia.
rewrite omegaD //; lia.
Qed.

(* local sums over the n+1 supported functions j = i-n .. i *)
Lemma local_sum_rec n (g : nat -> {poly F}) : (n < i)%N -> (i + n.+1 < N)%N ->
  fsum n.+2 (fun c => g (i - n.+1 + c)%N * b n.+1 (i - n.+1 + c)%N) =
  fsum n.+1 (fun c => b n (i - n + c)%N *
     (g (i - n + c)%N * omega n.+1 (i - n + c)%N
      + g (i - n + c).-1%N * (1 - omega n.+1 (i - n + c)%N))).
Proof.
move=> ni iN.
rewrite (eq_fsum (g := fun c => g (i - n.+1 + c)%N * omega n.+1 (i - n.+1 + c)%N * b n (i - n.+1 + c)%N
   + g (i - n.+1 + c)%N * (1 - omega n.+1 (i - n.+1 + c).+1) * b n (i - n.+1 + c).+1)); last first.
  by move=> c _; rewrite basis_poly_rec // mulrDr !mulrA.
rewrite fsumD fsum_recl /= basis_poly_out; last by lia.
rewrite mulr0 add0r [X in _ + _ + X]addrC -/(fsum n.+1 _).
set X := (X in _ + (X + _)).
have -> : X = 0.
  by rewrite /X basis_poly_out ?mulr0 //; lia.
rewrite add0r -[X in X + _]/(fsum n.+1 _) -[X in _ + X]/(fsum n.+1 _) -fsumD; apply: eq_fsum => c cn.
have -> : (i - n.+1 + c.+1 = i - n + c)%N by lia.
have -> : ((i - n.+1 + c).+1 = i - n + c)%N by lia.
have -> : (i - n.+1 + c = (i - n + c).-1)%N by lia.
by ring.
Qed.

(* the sum over all local functions, also for i = n (no truncation there) *)
Lemma basis_poly_partition n : (n <= i)%N -> (i + n < N)%N ->
  fsum n.+1 (fun c => b n (i - n + c)%N) = 1.
Proof.
elim: n => [|n IH] ni iN.
  by rewrite /= add0r subn0 addn0 basis_poly0 eqxx polyC1.
rewrite (eq_fsum (g := fun c => 1 * b n.+1 (i - n.+1 + c)%N)); last by move=> *; rewrite mul1r.
rewrite (@local_sum_rec _ (fun _ => 1)) //.
rewrite -[RHS]IH; [|lia..]; apply: eq_fsum => c _.
by rewrite !mul1r addrC subrK mulr1.
Qed.

Lemma greville_sum n : (n <= i)%N -> (i + n < N)%N ->
  fsum n.+1 (fun c => (\sum_(r < n) t (i - n + c + r.+1)%N)%:P * b n (i - n + c)%N) = n%:R *: 'X.
Proof.
elim: n => [|n IH] ni iN.
  by rewrite /= big_ord0 add0r mul0r scale0r.
rewrite (@local_sum_rec _ (fun j => (\sum_(r < n.+1) t (j + r.+1)%N)%:P)) //.
have e : forall c, (c < n.+1)%N ->
   b n (i - n + c)%N *
    ((\sum_(r < n.+1) t (i - n + c + r.+1)%N)%:P * omega n.+1 (i - n + c)%N +
     (\sum_(r < n.+1) t ((i - n + c).-1 + r.+1)%N)%:P * (1 - omega n.+1 (i - n + c)%N)) =
   (\sum_(r < n) t (i - n + c + r.+1)%N)%:P * b n (i - n + c)%N + 'X * b n (i - n + c)%N.
  move=> c cn; rewrite big_ord_recr /= big_ord_recl /=.
  set j := (i - n + c)%N; set S := \sum_(r < n) t (j + r.+1)%N.
  have -> : \sum_(i0 < n) t (j.-1 + (bump 0 i0).+1)%N = S.
    by apply: eq_bigr => r _; congr (t _); rewrite /bump; lia.
  have -> : (j.-1 + 1 = j)%N by rewrite /j; lia.
  rewrite !polyCD /omega.
  have nz : t (j + n.+1)%N - t j != 0 by apply: den_neq0; rewrite /j; lia.
  have := @omegaD j n.+1 _ _ _; rewrite -/(omega n.+1 j) => hD.
  have hX : omega n.+1 j * (t (j + n.+1)%N - t j)%:P = 'X - (t j)%:P.
    by rewrite /omega -scalerAl mulrC mul_polyC scalerA mulVf // scale1r.
  rewrite -/(omega n.+1 j) in hX *.
  have -> : (S%:P + (t (j + n.+1)%N)%:P) * omega n.+1 j + ((t j)%:P + S%:P) * (1 - omega n.+1 j)
     = S%:P + (t j)%:P + omega n.+1 j * (t (j + n.+1)%N - t j)%:P by rewrite polyCB; ring.
  by rewrite hX; ring.
rewrite (eq_fsum e) fsumD IH; [|lia..].
rewrite -fsum_mull basis_poly_partition; [|lia..].
by rewrite mulr1 -[n.+1]addn1 natrD scalerDl scale1r.
Qed.

(* derivative formula *)
Lemma basis_poly_deriv n j : (i + n.+1 < N)%N ->
  (b n.+1 j)^`() = n.+1%:R *: ((t (j + n.+1)%N - t j)^-1 *: b n j
                   - (t (j + n.+2)%N - t j.+1)^-1 *: b n j.+1).
Proof.
elim: n j => [|n IH] j iN.
  rewrite basis_polyS !basis_poly0 derivD !derivZ !derivM !derivB !derivX !derivC.
  by rewrite subr0 sub0r !mulr0 !addr0 scale1r mul1r mulN1r scalerN.
rewrite basis_polyS derivD !derivZ !derivM !derivB !derivX !derivC.
rewrite !IH; [|lia..].
have e1 : (j + n.+3 = j.+1 + n.+2)%N by lia.
have e2 : (j + n.+2 = j.+1 + n.+1)%N by lia.
have e3 : (j.+1 + n.+2 = j.+2 + n.+1)%N by lia.
rewrite subr0 sub0r mul1r mulN1r.
have e0 : n.+2%:R = n.+1%:R + 1 :> F by rewrite -[n.+2]addn1 natrD.
rewrite e0 scalerDl scale1r.
set G1 := (t (j + n.+2)%N - t j)^-1; set G2 := (t (j + n.+3)%N - t j.+1)^-1.
set H0 := (t (j + n.+1)%N - t j)^-1; set H1 := (t (j + n.+2)%N - t j.+1)^-1.
set H2 := (t (j.+1 + n.+2)%N - t j.+2)^-1.
have -> : (t (j.+1 + n.+1)%N - t j.+1)^-1 = H1 by rewrite /H1 e2.
suff main : G1 *: (('X - (t j)%:P) * (H0 *: b n j - H1 *: b n j.+1))
   + G2 *: (((t (j + n.+3)%N)%:P - 'X) * (H1 *: b n j.+1 - H2 *: b n j.+2))
   = G1 *: b n.+1 j - G2 *: b n.+1 j.+1.
  rewrite -[X in _ = _ *: X + _]main.
  by rewrite -!mul_polyC; ring.
rewrite !basis_polyS -/H0 -/H1 e2 -/H2.
have -> : (t (j.+1 + n.+1)%N - t j.+1)^-1 = H1 by rewrite /H1 e2.
have [/andP[h1 h2]|h] := boolP ((j.+1 <= i)%N && (i <= j.+1 + n)%N); last first.
  rewrite (basis_poly_out h) -!mul_polyC.
  have -> : (j.+1 + n.+2 = j + n.+3)%N by lia.
  ring.
have g1 : (t (j + n.+2)%N - t j) != 0 by apply: den_neq0; lia.
have g2 : (t (j + n.+3)%N - t j.+1) != 0 by rewrite e1; apply: den_neq0; lia.
have g3 : (t (j + n.+2)%N - t j.+1) != 0 by rewrite e2; apply: den_neq0; lia.
have -> : (j.+1 + n.+2 = j + n.+3)%N by lia.
rewrite -e2.
(* compare coefficients of b n j.+1 *)
suff k1 : (- G1 * H1) *: ('X - (t j)%:P) + (G2 * H1) *: ((t (j + n.+3)%N)%:P - 'X) =
    (G1 * H1) *: ((t (j + n.+2)%N)%:P - 'X) - (G2 * H1) *: ('X - (t j.+1)%:P).
  move: (congr1 (fun p => p * b n j.+1) k1); rewrite -!mul_polyC !polyCM !polyCN => k2.
  set p0 := b n j; set p1 := b n j.+1 in k2 *; set p2 := b n j.+2.
  rewrite -[LHS]subr0 -[RHS]subr0 -[in LHS](subrr (H1%:P * p1)) .
  apply/eqP; rewrite -subr_eq0; apply/eqP.
  have := k2; move/eqP; rewrite -subr_eq0 => /eqP k3.
  by rewrite -[RHS]k3; ring.
apply/polyP => q; rewrite !coefD !coefN !coefZ !coefB !coefX !coefC.
case: q => [|[|q]] //=; rewrite /G1 /G2 /H1; field; rewrite ?g1 ?g2 ?g3 //.
Qed.

Lemma basis_poly_nonneg n j x : (i + n < N)%N -> t i <= x -> x <= t i.+1 ->
  0 <= (b n j).[x].
Proof.
move=> iN x1 x2; elim: n j iN => [|n IH] j iN.
  by rewrite basis_poly0 hornerC ler0n.
rewrite basis_polyS hornerD !hornerZ !hornerM !hornerD !hornerN !hornerX !hornerC.
have posv a c : 0 <= c -> 0 <= a -> 0 <= a^-1 * c by move=> *; rewrite mulr_ge0 ?invr_ge0.
apply: addr_ge0.
  have [/andP[h1 h2]|h] := boolP ((j <= i)%N && (i <= j + n)%N); last first.
    by rewrite (basis_poly_out h) horner0 !mulr0.
  apply: posv; last by rewrite ltW // den_pos //; lia.
  by apply: mulr_ge0; [rewrite subr_ge0; apply: le_trans x1; apply: t_mono; lia|apply: IH; lia].
have [/andP[h1 h2]|h] := boolP ((j.+1 <= i)%N && (i <= j.+1 + n)%N); last first.
  by rewrite (basis_poly_out h) horner0 !mulr0.
have e : (j + n.+2 = j.+1 + n.+1)%N by lia.
apply: posv; last by rewrite e ltW // den_pos //; lia.
apply: mulr_ge0; last by apply: IH; lia.
rewrite subr_ge0; apply: le_trans x2 _; apply: t_mono; lia.
Qed.

(* Local linear independence: the n+1 local functions are linearly independent. *)
Lemma basis_poly_indep n (a : nat -> F) : (n <= i)%N -> (i + n < N)%N ->
  fsum n.+1 (fun c => a c *: b n (i - n + c)%N) = 0 -> forall c, (c <= n)%N -> a c = 0.
Proof.
elim: n a => [|n IH] a ni iN.
  rewrite /= add0r subn0 addn0 basis_poly0 eqxx -mul_polyC mulr1 => /eqP.
  by rewrite polyC_eq0 => /eqP a0 c; rewrite leqn0 => /eqP ->.
move=> S0.
have D0 : fsum n.+2 (fun c => a c *: (b n.+1 (i - n.+1 + c)%N)^`()) = 0.
  have := congr1 (@deriv F) S0; rewrite linear0 => <-.
  by rewrite !fsumE raddf_sum; apply: eq_bigr => c _; rewrite /= derivZ.
have D1 : fsum n.+1 (fun c => ((a c.+1 - a c) / (t (i - n + c + n.+1)%N - t (i - n + c)%N)) *:
     b n (i - n + c)%N) = 0.
  apply: (@scalerI _ _ n.+1%:R); first by rewrite pnatr_eq0.
  rewrite scaler0 -[RHS]D0.
  rewrite [RHS](eq_fsum (g := fun c => n.+1%:R *: (
     (a c / (t (i - n.+1 + c + n.+1)%N - t (i - n.+1 + c)%N)) *: b n (i - n.+1 + c)%N
     - (a c / (t ((i - n.+1 + c).+1 + n.+1)%N - t (i - n.+1 + c).+1)) *: b n (i - n.+1 + c).+1))); last first.
    move=> c _; rewrite basis_poly_deriv // -!mul_polyC !polyCM.
    by have -> : (i - n.+1 + c + n.+2 = (i - n.+1 + c).+1 + n.+1)%N; [lia|ring].
  rewrite -fsum_scale; congr (_ *: _); rewrite fsumB.
  rewrite [X in _ = X - _]fsum_recl [b n (i - n.+1 + 0)]basis_poly_out ?scaler0 ?add0r; last by lia.
  rewrite [X in _ - X]/= -/(fsum n.+1 _).
  rewrite [X in _ - (_ + _ *: X)]basis_poly_out ?scaler0 ?addr0; last by lia.
  rewrite -[X in _ - X]/(fsum n.+1 _) -fsumB; apply: eq_fsum => c cn.
  have -> : (i - n.+1 + c.+1 = i - n + c)%N by lia.
  have -> : ((i - n.+1 + c).+1 = i - n + c)%N by lia.
  by rewrite mulrBl scalerBl.
have E : forall c, (c <= n)%N -> a c.+1 = a c.
  move=> c cn; have iN' : (i + n < N)%N by lia.
  have := IH _ (ltnW ni) iN' D1 c cn; move/eqP; rewrite mulf_eq0 invr_eq0.
  have /negbTE -> : t (i - n + c + n.+1)%N - t (i - n + c)%N != 0 by apply: den_neq0; lia.
  by rewrite orbF subr_eq0 => /eqP.
have E0 : forall c, (c <= n.+1)%N -> a c = a 0%N.
  by elim=> // c IHc cn; rewrite E ?IHc //; apply: ltnW.
move=> c cn; rewrite E0 //.
move: S0; rewrite (eq_fsum (g := fun c => (a 0%N)%:P * b n.+1 (i - n.+1 + c)%N)); last first.
  by move=> d dn; rewrite E0 // mul_polyC.
rewrite -fsum_mull basis_poly_partition // mulr1 => /eqP.
by rewrite polyC_eq0 => /eqP.
Qed.

Lemma size_basis_poly n j : (size (b n j) <= n.+1)%N.
Proof.
elim: n j => [|n IH] j; first by rewrite basis_poly0 size_polyC; case: eqP.
rewrite basis_polyS; apply: leq_trans (size_add _ _) _; rewrite geq_max.
have h (c e : F) (p : {poly F}) : (size p <= n.+1)%N ->
   (size (c *: (('X - e%:P) * p)) <= n.+2)%N.
  move=> sp; apply: leq_trans (size_scale_leq _ _) _.
  by apply: leq_trans (size_mul_leq _ _) _; rewrite size_XsubC.
rewrite h //=.
have -> : ((t (j + n.+2)%N)%:P - 'X) = - ('X - (t (j + n.+2)%N)%:P) by rewrite opprB.
by rewrite mulNr scalerN size_opp h.
Qed.

(* Marsden's identity *)
Lemma marsden n (y : F) : (n <= i)%N -> (i + n < N)%N ->
  fsum n.+1 (fun c => (\prod_(r < n) (t (i - n + c + r.+1)%N - y)) *: b n (i - n + c)%N)
  = ('X - y%:P) ^+ n.
Proof.
elim: n => [|n IH] ni iN.
  by rewrite /= big_ord0 add0r scale1r expr0 subn0 addn0 basis_poly0 eqxx polyC1.
rewrite (eq_fsum (g := fun c => (\prod_(r < n.+1) (t (i - n.+1 + c + r.+1)%N - y))%:P
   * b n.+1 (i - n.+1 + c)%N)); last by move=> c _; rewrite mul_polyC.
rewrite (@local_sum_rec _ (fun j => (\prod_(r < n.+1) (t (j + r.+1)%N - y))%:P)) //.
rewrite exprS -IH; [|lia..]; rewrite fsum_mull; apply: eq_fsum => c cn.
rewrite big_ord_recr /= big_ord_recl /=.
set j := (i - n + c)%N; set S := \prod_(r < n) (t (j + r.+1)%N - y).
have -> : \prod_(i0 < n) (t (j.-1 + (bump 0 i0).+1)%N - y) = S.
  by apply: eq_bigr => r _; congr (t _ - _); rewrite /bump; lia.
have -> : (j.-1 + 1 = j)%N by rewrite /j; lia.
have nz : t (j + n.+1)%N - t j != 0 by apply: den_neq0; rewrite /j; lia.
have hX : omega n.+1 j * (t (j + n.+1)%N - t j)%:P = 'X - (t j)%:P.
  by rewrite /omega -scalerAl mulrC mul_polyC scalerA mulVf // scale1r.
have -> : (S * (t (j + n.+1)%N - y))%:P * omega n.+1 j + ((t j - y) * S)%:P * (1 - omega n.+1 j)
   = S%:P * ((t j)%:P - y%:P + omega n.+1 j * (t (j + n.+1)%N - t j)%:P).
  by rewrite !(polyCM, polyCB); ring.
by rewrite hX -mul_polyC; ring.
Qed.
End Segment.

(* continuity of the derivatives of order < n across a simple knot *)
Lemma basis_poly_cont0 i n j : (0 < n)%N -> (i.+1 + n < N)%N ->
  t i < t i.+1 -> t i.+1 < t i.+2 ->
  (basis_poly t i n j).[t i.+1] = (basis_poly t i.+1 n j).[t i.+1].
Proof.
move=> n0 iN h1 h2; elim: n j n0 iN => [//|n IH] j _ iN.
rewrite !basis_polyS !hornerD !hornerZ !hornerM !hornerD !hornerN !hornerX !hornerC.
case: n IH iN => [|n] IH iN; last by rewrite !IH //; lia.
rewrite !basis_poly0 !hornerC.
have E1 : (i == i.+1) = false by lia.
have E2 : (i == i.+2) = false by lia.
have E3 : (i.+1 == i.+2) = false by lia.
have E4 : (i.+1 == i) = false by lia.
have [->|ne0] := eqVneq j i.+1.
  by rewrite ?E1 ?E2 ?E3 subrr !(mulr0, mul0r, addr0).
have [->|ne1] := eqVneq j i.
  rewrite ?eqxx ?E1 ?E4.
  rewrite !(mulr0, mul0r, addr0, add0r, mulr1) addn1 addn2.
  by rewrite !mulVf // subr_eq0 gt_eqF.
have E5 : (i == j) = false by lia.
have E6 : (i.+1 == j) = false by lia.
have E7 : (i.+1 == j.+1) = false by lia.
rewrite ?E5 ?E6 ?E7 !(mulr0, mul0r, addr0, add0r, mulr1).
have [e|ne2] := eqVneq i j.+1; last by rewrite !mulr0.
have -> : (j + 2 = i.+1)%N by lia.
by rewrite subrr mul0r mulr0.
Qed.

Lemma basis_poly_cont i n j d : (d < n)%N -> (i.+1 + n < N)%N ->
  t i < t i.+1 -> t i.+1 < t i.+2 ->
  (basis_poly t i n j)^`(d).[t i.+1] = (basis_poly t i.+1 n j)^`(d).[t i.+1].
Proof.
move=> dn iN h1 h2; elim: d n j dn iN => [|d IH] n j dn iN.
  by rewrite !derivn0; apply: basis_poly_cont0.
case: n dn iN => // n dn iN.
rewrite !derivSn !basis_poly_deriv //; last by lia.
by rewrite !(derivnZ, derivnB) !hornerE !IH //; lia.
Qed.

(* the point functions coincide with the polynomial of the enclosing segment *)
Lemma basis_fun_poly i n j x : t i <= x -> x < t i.+1 -> (i.+1 < N)%N -> (j + n.+1 < N)%N ->
  basis_fun t n j x = (basis_poly t i n j).[x].
Proof.
move=> x1 x2 iN; elim: n j => [|n IH] j jN.
  rewrite basis_poly0 hornerC /basis_fun; congr (nat_of_bool _)%:R.
  have [<-|ne] := eqVneq i j; first by rewrite x1 x2.
  apply/negbTE; rewrite negb_and -ltNge -leNgt.
  have [ij|ij] := ltnP i j.
    by apply/orP; left; apply: lt_le_trans x2 _; apply: t_mono; lia.
  by apply/orP; right; apply: le_trans x1; apply: t_mono; lia.
rewrite basis_polyS hornerD !hornerZ !hornerM !hornerD !hornerN !hornerX !hornerC.
rewrite -!IH; [|lia..].
rewrite /basis_fun -/basis_fun; ring.
Qed.

End Basis.

Section LinPow.
Variable F : realFieldType.

Lemma derivn_linpow (a h : F) q d :
  ((h *: ('X - a%:P)) ^+ q)^`(d) = ((q ^_ d)%:R * h ^+ d) *: (h *: ('X - a%:P)) ^+ (q - d).
Proof.
elim: d => [|d IH]; first by rewrite derivn0 ffactn0 expr0 mulr1 scale1r subn0.
rewrite derivnS IH derivZ deriv_exp derivZ derivB derivX derivC subr0.
have [dq|dq] := ltnP d q; last first.
  have -> : (q - d = 0)%N by lia.
  by rewrite mulr0n scaler0 ffact_small // mul0r scale0r.
rewrite -[(q - d)%N]/(q - d)%N subnS ffactnSr natrM exprS.
rewrite -scaler_nat -!scalerAl mul1r !scalerA; congr (_ *: _).
by rewrite -mulrA [RHS]mulrC -!mulrA; ring.
Qed.

Lemma derivn_linpow_horner (a h : F) q d x :
  ((h *: ('X - a%:P)) ^+ q)^`(d).[x] = (q ^_ d)%:R * h ^+ d * (h * (x - a)) ^+ (q - d).
Proof. by rewrite derivn_linpow hornerZ horner_exp hornerZ !hornerE. Qed.
End LinPow.
