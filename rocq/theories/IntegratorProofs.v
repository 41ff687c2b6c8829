(* Proofs about the numeric integrators. *)
From mathcomp Require Import all_ssreflect all_algebra.
From mathcomp.algebra_tactics Require Import ring.
From mathcomp.zify Require Import zify.
From Verif Require Import Prelude KnotModel KnotProofs IntegratorModel.
Set Implicit Arguments.
Unset Strict Implicit.
Unset Printing Implicit Defensive.
Import GRing.Theory Num.Theory Order.Theory.
Local Open Scope ring_scope.

Section Loop.
Variables (F : realFieldType) (V : lmodType F) (T : ringType).
Variables (tdiv : T -> int -> T) (dbl : T -> F).
Implicit Types (alg : rule) (a b : T) (f : T -> V) (M i : nat).

(* the integrator with M+1 points standing at point i *)
Definition at_point a b M i : integrator T :=
  Integrator a b M%:Z (tdiv (b - a) M%:Z) i.
(* sample points and weights, without the model *)
Definition gsample a b M i : T := if i == M then b else a + tdiv (b - a) M%:Z * i%:R.
Definition weight alg M i : F :=
  if (i == 0%N) || (i == M) then 1 / 2%:R
  else if alg is Simpson then if odd i then 2%:R else 1 else 1.

Lemma scalarE a b M i : getIntegrationScalar (at_point a b M i) = gsample a b M i.
Proof. by rewrite /getIntegrationScalar /= eqz_nat. Qed.
Lemma factorE alg a b M i : getValueFactor F alg (at_point a b M i) = weight alg M i.
Proof.
rewrite /getValueFactor /weight /atBounds /= eqz_nat.
by case: alg; case: ifP => // _; rewrite modn2; case: (odd i).
Qed.

Lemma loopE alg a b M f fuel i sum : (i <= M.+1)%N -> (M.+1 - i < fuel)%N ->
  integrate_loop fuel alg f (at_point a b M i) sum =
  (sum + \sum_(i <= j < M.+1) weight alg M j *: f (gsample a b M j), at_point a b M M.+1).
Proof.
elim: fuel i sum => [|fuel IH] i sum iM fu //=.
rewrite /isAtEnd /= ltz_nat; case: ifP => h.
  have -> : i = M.+1 by apply/eqP; rewrite eqn_leq iM h.
  by rewrite big_geq // addr0.
have iM' : (i <= M)%N by move: h; rewrite ltnNge => /negbFE.
rewrite -[next _]/(at_point a b M i.+1) IH; [|by []|by move: iM' fu; clear; lia].
rewrite factorE scalarE // [in RHS]big_ltn // addrA; congr (_ + _, _).
by case: eqP => [->|_] //; rewrite scale1r.
Qed.

Lemma integratorE a b n : n != 1%N -> (0 < n)%N ->
  fixStep_new tdiv a b n = Ok (at_point a b n.-1 0).
Proof. by case: n => // -[|n] // _ _. Qed.

(* number of intervals *)
Definition intervals alg n : nat := if alg is Simpson then (n - n %% 2)%N else n.-1.
Lemma getIntegratorE alg a b n : (2 <= n)%N ->
  getIntegrator tdiv alg a b n = Ok (at_point a b (intervals alg n) 0) /\
  (0 < intervals alg n)%N.
Proof.
move=> n2; case: alg => /=; rewrite integratorE; try (move: n2; clear; lia).
  have -> : (n + 1 - n %% 2).-1 = (n - n %% 2)%N by have := leq_mod n 2; clear; lia.
  split=> //; move: n2 (ltn_pmod n (isT : 0 < 2)%N); clear; lia.
by split=> //; move: n2; clear; lia.
Qed.

Lemma integrate_gE alg a b f n zero : (2 <= n)%N -> a != b ->
  let M := intervals alg n in
  integrateFunctor tdiv dbl alg a b f n zero =
  Ok (getCommonFactor dbl alg (at_point a b M 0) *:
      \sum_(j < M.+1) weight alg M j *: f (gsample a b M j)).
Proof.
move=> n2 ab M; have [e M0] := getIntegratorE alg a b n2.
rewrite /integrateFunctor (negbTE ab) e /=.
rewrite -[next _]/(at_point a b M 1) loopE //; last by rewrite addn2 subn1 /=; clear; lia.
rewrite factorE scalarE //; congr (Ok (_ *: _)).
by rewrite -(big_mkord xpredT (fun j => weight alg M j *: f (gsample a b M j))) [in RHS]big_ltn.
Qed.

Lemma pointsE a b M fuel i : (i <= M.+1)%N -> (M.+1 - i < fuel)%N ->
  points_loop fuel (at_point a b M i) = [seq gsample a b M j | j <- iota i (M.+1 - i)].
Proof.
elim: fuel i => [|fuel IH] i iM fu //=.
rewrite /isAtEnd /= ltz_nat; case: ifP => h.
  by have -> : (M.+1 - i = 0)%N by move: h; clear; lia.
have iM' : (i <= M)%N by move: h; rewrite ltnNge => /negbFE.
rewrite subSn //= scalarE // -[next _]/(at_point a b M i.+1) IH; [|by []|by move: iM' fu; clear; lia].
by rewrite subSS.
Qed.
Lemma samplePoints_gE alg a b n : (2 <= n)%N ->
  samplePoints tdiv alg a b n =
  Ok (mkseq (gsample a b (intervals alg n)) (intervals alg n).+1).
Proof.
move=> n2; have [e M0] := getIntegratorE alg a b n2.
rewrite /samplePoints e /= scalarE // -[next _]/(at_point a b (intervals alg n) 1).
by rewrite pointsE // ?subn1 //= addn2; clear; lia.
Qed.
Lemma too_few (V' : lmodType F) alg a b (f : T -> V') n zero : a != b ->
  (if alg is Simpson then n <= 1 else n == 1)%N ->
  integrateFunctor tdiv dbl alg a b f n zero = UB.
Proof.
by rewrite /integrateFunctor => /negbTE->; case: alg; [case: n => [|[|]]|case: n => [|[|]]].
Qed.
End Loop.

Notation dbl_integrateFunctor := (integrateFunctor (@dbl_div _) (@dbl_id _)).
Notation dbl_samplePoints := (samplePoints (@dbl_div _)).
Notation dbl_point := (at_point (@dbl_div _)).
Notation dbl_common := (getCommonFactor (@dbl_id _)).
Section Dbl.
Variables (F : realFieldType) (V : lmodType F).
Implicit Types (alg : rule) (a b : F) (f : F -> V) (M i : nat).

Definition sample a b M i : F := a + (b - a) / M%:R * i%:R.
Lemma gsampleE a b M i : (0 < M)%N -> gsample (@dbl_div F) a b M i = sample a b M i.
Proof.
move=> M0; rewrite /gsample /dbl_div; case: eqP => // ->.
by rewrite /sample mulfVK ?pnatr_eq0 -?lt0n // addrCA subrr addr0.
Qed.
Lemma integrateE alg a b f n zero : (2 <= n)%N -> a != b ->
  let M := intervals alg n in
  dbl_integrateFunctor alg a b f n zero =
  Ok (dbl_common alg (dbl_point a b M 0) *:
      \sum_(j < M.+1) weight F alg M j *: f (sample a b M j)).
Proof.
move=> n2 ab M; rewrite integrate_gE //; congr (Ok (_ *: _)); apply: eq_bigr => j _.
by rewrite gsampleE //; case: (getIntegratorE (@dbl_div F) alg a b n2).
Qed.
Lemma samplePointsE alg a b n : (2 <= n)%N ->
  dbl_samplePoints alg a b n = Ok (mkseq (sample a b (intervals alg n)) (intervals alg n).+1).
Proof.
move=> n2; rewrite samplePoints_gE //; congr Ok; apply: eq_mkseq => j.
by rewrite gsampleE //; case: (getIntegratorE (@dbl_div F) alg a b n2).
Qed.

Lemma sample0 a b M : sample a b M 0 = a.
Proof. by rewrite /sample mulr0 addr0. Qed.
Lemma sampleM a b M : (0 < M)%N -> sample a b M M = b.
Proof.
by move=> M0; rewrite /sample mulfVK ?pnatr_eq0 -?lt0n // addrCA subrr addr0.
Qed.
Lemma sample_in a b M i : (0 < M)%N -> (i <= M)%N -> a <= b -> a <= sample a b M i <= b.
Proof.
move=> M0 iM ab; have M0' : 0 < M%:R :> F by rewrite ltr0n.
have h0 : 0 <= (b - a) / M%:R by rewrite divr_ge0 ?subr_ge0 // ltW.
have -> : a <= sample a b M i by rewrite /sample ler_addl mulr_ge0 ?ler0n.
rewrite -{2}(sampleM a b M0) /sample ler_add2l.
by apply: ler_wpmul2l => //; rewrite ler_nat.
Qed.
End Dbl.

(* ------------------------------------------------------------------ quadrature *)
Section Quad.
Variables (F : realFieldType) (V : lmodType F).

Lemma trap_panels (g : nat -> V) M : (0 < M)%N ->
  \sum_(j < M.+1) weight F Trapezoidal M j *: g j =
  \sum_(j < M) (1 / 2%:R) *: (g j + g j.+1).
Proof.
case: M => // M _.
have -> : \sum_(j < M.+2) weight F Trapezoidal M.+1 j *: g j =
  (1 / 2%:R) *: g 0%N + \sum_(j < M) g j.+1 + (1 / 2%:R) *: g M.+1.
  rewrite big_ord_recl big_ord_recr /= /weight /= eqxx addrA; congr (_ + _ + _).
  apply: eq_bigr => i _; rewrite /bump leq0n add1n /=.
  by rewrite eqSS ltn_eqF ?scale1r.
have halves (v : V) : v = (1 / 2%:R) *: v + (1 / 2%:R) *: v.
  by rewrite -scalerDl -{1}(scale1r v); congr (_ *: _); field.
elim: M => [|M IH]; first by rewrite big_ord0 addr0 big_ord1 scalerDr.
rewrite [RHS]big_ord_recr /= -IH big_ord_recr /= scalerDr [in LHS](halves (g M.+1)).
by rewrite !addrA.
Qed.

Lemma simpson_panels (g : nat -> V) m : (0 < m)%N ->
  \sum_(j < m.*2.+1) weight F Simpson m.*2 j *: g j =
  \sum_(j < m) ((1 / 2%:R) *: g j.*2 + 2%:R *: g j.*2.+1 + (1 / 2%:R) *: g j.*2.+2).
Proof.
case: m => // m _; rewrite doubleS.
have -> : \sum_(j < m.*2.+3) weight F Simpson m.*2.+2 j *: g j =
  (1 / 2%:R) *: g 0%N + \sum_(j < m.*2.+1) (if odd j then 1 else 2%:R) *: g j.+1 +
  (1 / 2%:R) *: g m.*2.+2.
  rewrite big_ord_recl big_ord_recr /= /weight /= eqxx addrA; congr (_ + _ + _).
  apply: eq_bigr => i _; rewrite /bump leq0n add1n /=.
  by rewrite eqSS ltn_eqF //; case: (odd i).
have halves (v : V) : v = (1 / 2%:R) *: v + (1 / 2%:R) *: v.
  by rewrite -scalerDl -{1}(scale1r v); congr (_ *: _); field.
elim: m => [|m IH]; first by rewrite !big_ord1.
rewrite [RHS]big_ord_recr /= -IH doubleS 2!big_ord_recr /= odd_double /= scale1r.
rewrite {1}(halves (g m.*2.+2)) !addrA; congr (_ + _); rewrite -!addrA; congr (_ + (_ + _)).
Qed.

(* vector-valued polynomials of degree < d with coefficients c, and their antiderivatives *)
Definition vpoly (c : nat -> V) (d : nat) (x : F) : V := \sum_(i < d) x ^+ i *: c i.
Definition vanti (c : nat -> V) (d : nat) (x : F) : V :=
  \sum_(i < d) (x ^+ i.+1 / i.+1%:R) *: c i.

Lemma trap_panel c x h :
  h *: ((1 / 2%:R) *: (vpoly c 2 x + vpoly c 2 (x + h))) = vanti c 2 (x + h) - vanti c 2 x.
Proof.
rewrite /vpoly /vanti -!big_split /= !scaler_sumr -sumrB.
apply: eq_bigr => -[i hi] _ /=; rewrite -!scalerDl -!scalerBl !scalerA; congr (_ *: _).
by case: i hi => [|[|i]] //= _; rewrite ?expr0 ?expr1; field.
Qed.
Lemma simpson_panel c x h :
  (h * 2%:R / 3%:R) *: ((1 / 2%:R) *: vpoly c 4 x + 2%:R *: vpoly c 4 (x + h) +
     (1 / 2%:R) *: vpoly c 4 (x + h *+ 2)) = vanti c 4 (x + h *+ 2) - vanti c 4 x.
Proof.
rewrite /vpoly /vanti !scaler_sumr -!big_split /= -sumrB scaler_sumr.
apply: eq_bigr => -[i hi] _ /=; rewrite !scalerA -!scalerDl -!scalerBl !scalerA; congr (_ *: _).
by case: i hi => [|[|[|[|i]]]] //= _; rewrite ?expr0 ?expr1; field.
Qed.

Lemma sampleS a b M i : sample a b M i.+1 = sample a b M i + (b - a) / M%:R :> F.
Proof. by rewrite /sample -addn1 natrD mulrDr mulr1 addrA. Qed.

Definition exact_degree alg : nat := if alg is Simpson then 3%N else 1%N.

Lemma integrate_exact alg a b c n zero : (2 <= n)%N -> a != b ->
  dbl_integrateFunctor alg a b (vpoly c (exact_degree alg).+1) n zero =
  Ok (vanti c (exact_degree alg).+1 b - vanti c (exact_degree alg).+1 a).
Proof.
move=> n2 ab; rewrite integrateE //; congr Ok.
have [_] := getIntegratorE (@dbl_div F) alg a b n2; set M := intervals alg n => M0.
rewrite -[X in _ = vanti _ _ X - _](sampleM a b M0) -[X in _ = _ - vanti _ _ X](sample0 a b M).
case: alg @M M0 => /= M0.
  set M := (n - n %% 2)%N in M0 *.
  have [m e] : exists m, M = m.*2.
    exists n./2; rewrite /M modn2 -[X in (X - _)%N]odd_double_half; move: (odd n) => o; clear; lia.
  rewrite e in M0 *; have m0 : (0 < m)%N by move: M0; clear; lia.
  have -> := simpson_panels (fun j => vpoly c 4 (sample a b m.*2 j)) m0.
  rewrite scaler_sumr.
  have <- := telescope_sumr (fun k => vanti c 4 (sample a b m.*2 k.*2)) (leq0n m).
  rewrite big_mkord; apply: eq_bigr => j _; rewrite doubleS !sampleS.
  by have := simpson_panel c (sample a b m.*2 j.*2) ((b - a) / m.*2%:R); rewrite mulr2n addrA => <-.
have -> := trap_panels (fun j => vpoly c 2 (sample a b n.-1 j)) M0.
rewrite scaler_sumr.
have <- := telescope_sumr (fun k => vanti c 2 (sample a b n.-1 k)) (leq0n n.-1).
rewrite big_mkord.
by apply: eq_bigr => j _; rewrite !sampleS trap_panel.
Qed.

Lemma integrate_exact_any alg a b c n : (2 <= n)%N ->
  dbl_integrateFunctor alg a b (vpoly c (exact_degree alg).+1) n 0 =
  Ok (vanti c (exact_degree alg).+1 b - vanti c (exact_degree alg).+1 a).
Proof.
move=> n2; case: (altP (a =P b)) => [<-|ab]; last exact: integrate_exact.
by rewrite /integrateFunctor eqxx subrr.
Qed.

Lemma integrate_ext alg a b n zero (f g : F -> V) : (2 <= n)%N -> a <= b ->
  (forall x, a <= x <= b -> f x = g x) ->
  dbl_integrateFunctor alg a b f n zero = dbl_integrateFunctor alg a b g n zero.
Proof.
move=> n2 ab fg; case: (altP (a =P b)) => [<-|nab]; first by rewrite /integrateFunctor eqxx.
rewrite !integrateE //; congr (Ok (_ *: _)); apply: eq_bigr => j _; congr (_ *: _).
apply: fg; apply: sample_in => //; first by case: (getIntegratorE (@dbl_div F) alg a b n2).
by rewrite -ltnS ltn_ord.
Qed.

End Quad.

Section Samples.
Variables (F : realFieldType) (V : lmodType F).

(* the value is the combination of the samples with weights that do not depend on f *)
Lemma integrate_samples alg (a b : F) n (zero : V) : (2 <= n)%N -> a != b ->
  exists (xs ws : seq F),
  [/\ dbl_samplePoints alg a b n = Ok xs, size ws = size xs, \sum_(w <- ws) w = b - a &
    forall f : F -> V, dbl_integrateFunctor alg a b f n zero =
      Ok (\sum_(j < size xs) nth 0 ws j *: f (nth 0 xs j))].
Proof.
move=> n2 ab; set M := intervals alg n.
pose k := dbl_common alg (dbl_point a b M 0).
exists (mkseq (sample a b M) M.+1), (mkseq (fun j => k * weight F alg M j) M.+1).
rewrite samplePointsE // !size_mkseq; split=> //.
  rewrite /mkseq big_map -{1}(subn0 M.+1) -/(index_iota 0 M.+1) big_mkord -mulr_sumr.
  pose c i : F^o := if i == 0%N then 1 else 0.
  have := integrate_exact alg c 0 n2 ab; rewrite integrateE // => -[].
  have e (x : F) : vpoly c (exact_degree alg).+1 x = 1.
    rewrite /vpoly big_ord_recl expr0 scale1r big1 ?addr0 // => i _.
    by rewrite /c /= scaler0.
  have e' (x : F) : vanti c (exact_degree alg).+1 x = x.
    rewrite /vanti big_ord_recl /= expr1 divr1 big1 ?addr0 => [|i _]; last first.
      by rewrite /c /= scaler0.
    by rewrite /c /= /GRing.scale /= mulr1.
  rewrite !e' => <-; rewrite -/M -/k /GRing.scale /=; congr (_ * _).
  by apply: eq_bigr => j _; rewrite e mulr1.
move=> f; rewrite integrateE //; congr Ok; rewrite scaler_sumr; apply: eq_bigr => j _.
by rewrite !nth_mkseq // scalerA.
Qed.

Lemma points_spec alg (a b : F) n : (2 <= n)%N -> exists xs,
  [/\ dbl_samplePoints alg a b n = Ok xs,
      size xs = (if alg is Simpson then if odd n then n else n.+1 else n),
      head 0 xs = a, last 0 xs = b &
      a <= b -> all (fun x => a <= x <= b) xs && sorted <=%R xs].
Proof.
move=> n2; have [_ M0] := getIntegratorE (@dbl_div F) alg a b n2; set M := intervals alg n in M0 *.
exists (mkseq (sample a b M) M.+1); split.
- exact: samplePointsE.
- rewrite size_mkseq /M; case: (alg) => /=; last by move: n2; clear; lia.
  rewrite modn2; case: (odd n) => /=; move: n2; clear; lia.
- by rewrite /= sample0.
- by rewrite /mkseq -addn1 iotaD map_cat last_cat /= add0n sampleM.
- move=> ab; apply/andP; split.
    apply/allP => x /mapP[i]; rewrite mem_iota /= add0n ltnS => iM ->.
    exact: sample_in.
  apply: (homo_sorted (e := leq)); last exact: iota_sorted.
  move=> i j ij; rewrite /sample ler_add2l; apply: ler_wpmul2l; last by rewrite ler_nat.
  by rewrite divr_ge0 ?subr_ge0 ?ler0n.
Qed.
End Samples.

Section Scalar.
Variable F : realFieldType.
Lemma poly_anti (p P : {poly F}) d : P^`() = p -> (size p <= d)%N -> forall x,
  (vanti (V := [lmodType F of F^o]) (fun i => p`_i) d x : F) = P.[x] - P`_0.
Proof.
move=> e sp x; have sP : (size P <= d.+1)%N.
  apply/leq_sizeP => j dj; case: j dj => // j dj.
  have : p`_j = 0 by apply: nth_default; exact: leq_trans sp dj.
  rewrite -e coef_deriv => /eqP; rewrite -mulr_natr mulf_eq0 pnatr_eq0 orbF => /eqP //.
rewrite (horner_coef_wide _ sP) big_ord_recl /= expr0 mulr1 addrC addKr.
apply: eq_bigr => i _; rewrite -e coef_deriv /bump leq0n add1n /GRing.scale /=.
have n0 : i.+1%:R != 0 :> F by rewrite pnatr_eq0.
rewrite -[X in _ * X = _]mulr_natr; move: n0; set k : F := _%:R; set u := _ ^+ _; move: (P`_ _) => v k0.
by rewrite [v * u]mulrC mulrACA -[RHS]mulr1; congr (_ * _); rewrite mulVf.
Qed.
Lemma poly_exact alg (a b : F) (p P : {poly F}) n : (2 <= n)%N ->
  P^`() = p -> (size p <= (exact_degree alg).+1)%N ->
  dbl_integrateFunctor alg a b (fun x => p.[x] : F^o) n 0 = Ok (P.[b] - P.[a] : F^o).
Proof.
move=> n2 e sp.
have e1 x : p.[x] = vpoly (V := [lmodType F of F^o]) (fun i => p`_i) (exact_degree alg).+1 x.
  rewrite (horner_coef_wide _ sp) /vpoly; apply: eq_bigr => i _.
  by rewrite /GRing.scale /= mulrC.
case: (altP (a =P b)) => [<-|nab]; first by rewrite /integrateFunctor eqxx subrr.
have := integrate_exact (V := [lmodType F of F^o]) alg (fun i => p`_i) 0 n2 nab.
rewrite integrateE // => -[h]; rewrite integrateE //; congr Ok.
transitivity ((P.[b] - P`_0) - (P.[a] - P`_0)); last by ring.
rewrite -!(poly_anti e sp); apply: etrans h; congr (_ *: _).
by apply: eq_bigr => j _; rewrite e1.
Qed.
End Scalar.

(* ------------------------------------------------------------------ integer times *)
Section IntTimes.
Variables (F : realFieldType) (V : lmodType F).
Notation int_integrateFunctor := (integrateFunctor quotz (int_dbl F)).

Lemma weight_sum alg n : (2 <= n)%N -> let M := intervals alg n in
  getCommonFactor (@dbl_id F) alg (Integrator 0 1 M%:Z 1 0) * (\sum_(j < M.+1) weight F alg M j)
  = M%:R.
Proof.
move=> n2 M; have [_ M0] := getIntegratorE (@dbl_div F) alg 0 1 n2; rewrite -/M in M0.
have M0' : M%:R != 0 :> F by rewrite pnatr_eq0 -lt0n.
have ab : (0 : F) != M%:R by rewrite eq_sym.
have [xs [ws [_ _ sw h]]] := integrate_samples (V := [lmodType F of F^o]) alg 0 n2 ab.
pose c i : F^o := if i == 0%N then 1 else 0.
have := integrate_exact alg c 0 n2 ab; rewrite integrateE // => -[].
have e (x : F) : vpoly c (exact_degree alg).+1 x = 1.
  rewrite /vpoly big_ord_recl expr0 scale1r big1 ?addr0 // => i _.
  by rewrite /c /= scaler0.
have e' (x : F) : vanti c (exact_degree alg).+1 x = x.
  rewrite /vanti big_ord_recl /= expr1 divr1 big1 ?addr0 => [|i _]; last first.
    by rewrite /c /= scaler0.
  by rewrite /c /= /GRing.scale /= mulr1.
rewrite !e' subr0 => h1; rewrite -[RHS]h1 /GRing.scale /=; congr (_ * _).
  by rewrite /getCommonFactor /= /dbl_div /dbl_id subr0 divff.
by apply: eq_bigr => j _; rewrite e mulr1.
Qed.

Lemma int_constant alg (a b : int) (v : V) n zero : (2 <= n)%N -> a != b ->
  let M := (intervals alg n)%:Z in
  int_integrateFunctor alg a b (fun _ => v) n zero = Ok ((quotz (b - a) M * M)%:~R *: v).
Proof.
move=> n2 ab M; rewrite integrate_gE //; congr Ok.
rewrite -scaler_suml scalerA; congr (_ *: _).
rewrite intrM -[X in _ = _ * X](weight_sum alg n2) mulrA; congr (_ * _).
rewrite /getCommonFactor /= /int_dbl /dbl_id {}/M; case: (alg) => /=; by rewrite ?mulr1 ?mul1r ?mulrA.
Qed.

Lemma int_divisible alg (a b : int) (f : int -> V) (g : F -> V) n zero : (2 <= n)%N ->
  ((intervals alg n)%:Z %| b - a)%Z -> (forall t, f t = g t%:~R) ->
  int_integrateFunctor alg a b f n zero = dbl_integrateFunctor alg a%:~R b%:~R g n zero.
Proof.
move=> n2 dv fg; case: (altP (a =P b)) => [<-|ab]; first by rewrite /integrateFunctor !eqxx.
have ab' : a%:~R != b%:~R :> F by rewrite eqr_int.
have [_ M0] := getIntegratorE quotz alg a b n2.
rewrite integrate_gE // integrateE //; set M := intervals alg n in M0 dv *.
have M0' : M%:R != 0 :> F by rewrite pnatr_eq0 -lt0n.
have /dvdzP[q e] := dv.
have eq : quotz (b - a) M = q by rewrite e quotz_mul // ltz_nat.
have eF : (b%:~R - a%:~R) / M%:R = q%:~R :> F.
  have -> : b = a + q * M%:Z by rewrite -e addrC subrK.
  by rewrite intrD intrM addrC addKr mulfK.
congr (Ok (_ *: _)).
  rewrite /getCommonFactor /= eq /int_dbl /dbl_id /dbl_div.
  have -> : (b%:~R - a%:~R) / M%:~R = q%:~R :> F by rewrite -[RHS]eF.
  by [].
apply: eq_bigr => j _; rewrite fg; congr (_ *: g _).
rewrite /gsample /sample eq eF; case: eqP => [->|_].
  have -> : b = a + q * M%:Z by rewrite -e addrC subrK.
  by rewrite intrD intrM.
rewrite intrD intrM; congr (_ + _ * _).
by rewrite natz.
Qed.

Lemma intervalsE alg n :
  intervals alg n = (if alg is Simpson then n - n %% 2 else n - 1)%N.
Proof. by case: alg => //=; rewrite subn1. Qed.
Lemma main_int_divisible alg (a b : int) (f : int -> V) (g : F -> V) n zero : (2 <= n)%N ->
  ((if alg is Simpson then n - n %% 2 else n - 1)%N%:Z %| b - a)%Z ->
  (forall t, f t = g t%:~R) ->
  int_integrateFunctor alg a b f n zero = dbl_integrateFunctor alg a%:~R b%:~R g n zero.
Proof. rewrite -intervalsE; exact: int_divisible. Qed.
Lemma main_int_constant alg (a b : int) (v : V) n zero : (2 <= n)%N -> a != b ->
  let M := (if alg is Simpson then n - n %% 2 else n - 1)%N%:Z in
  int_integrateFunctor alg a b (fun _ => v) n zero = Ok ((quotz (b - a) M * M)%:~R *: v).
Proof. move=> n2 ab M; rewrite int_constant // /M -intervalsE //. Qed.

Lemma numerically_anti (T : realDomainType) (tdiv : T -> int -> T) (dbl : T -> F)
  (a b : T) (f : T -> V) n :
  evalFunctorIntegralNumerically tdiv dbl (fun x y => x < y) b a f n 0 =
  (do v <- evalFunctorIntegralNumerically tdiv dbl (fun x y => x < y) a b f n 0 ; Ok (- v)).
Proof.
rewrite /evalFunctorIntegralNumerically; case: (ltgtP a b) => [ab|ab|->] //.
  by case: integrateFunctor => //= v; rewrite opprK.
by rewrite /integrateFunctor eqxx /= oppr0.
Qed.
Lemma numerically_exact (a b : F) (c : nat -> V) n : (2 <= n)%N ->
  evalFunctorIntegralNumerically (@dbl_div F) (@dbl_id F) (fun x y => x < y) a b
    (vpoly c 4) n 0 = Ok (vanti c 4 b - vanti c 4 a).
Proof.
move=> n2; rewrite /evalFunctorIntegralNumerically.
have h a' b' := integrate_exact_any Simpson a' b' c n2; rewrite /exact_degree in h.
by rewrite !h /=; case: ifP => // _; rewrite opprB.
Qed.
End IntTimes.
