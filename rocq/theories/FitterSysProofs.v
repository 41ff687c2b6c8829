(* The linear system assembled by the fitter. *)
From mathcomp Require Import all_ssreflect all_algebra.
From mathcomp.algebra_tactics Require Import ring.
From mathcomp.zify Require Import zify.
From Verif Require Import Prelude CoxDeBoor CoxDeBoorProofs BSplineModel BSplineSpec
  BSplineProofs BSplineEvalProofs BSplineIntegralProofs BSplineQuadProofs LinSolve
  DMModel DMSpec DMProofs DMEvalProofs KnotModel FitterModel FitterSpec FitterAlg
  FitterQuadProofs.
Set Implicit Arguments.
Unset Strict Implicit.
Unset Printing Implicit Defensive.
Import GRing.Theory Num.Theory Order.Theory.
Local Open Scope ring_scope.
#[local] Arguments fsum : simpl never.

Section Grid.
Variable F : realFieldType.
Variable D : nat.
Hypothesis D0 : (0 < D)%N.

Lemma grid_range u r r0 m : (r < D)%N ->
  ((r0 * D <= u * D + r) && (u * D + r < r0 * D + m * D))%N = (r0 <= u < r0 + m)%N.
Proof.
move=> rD; rewrite -mulnDl; congr (_ && _).
  apply/idP/idP => h; last by apply: leq_trans (leq_addr _ _); rewrite leq_mul2r h orbT.
  rewrite -ltnS -(ltn_pmul2r D0); apply: leq_ltn_trans h _; by rewrite mulSnr ltn_add2l.
apply/idP/idP => h; first by rewrite -(ltn_pmul2r D0); apply: leq_ltn_trans h; exact: leq_addr.
by apply: (@leq_trans (u.+1 * D)%N); [rewrite mulSnr ltn_add2l|rewrite leq_mul2r h orbT].
Qed.

Lemma ft_add_block_grid (A B : mat F) r0 c0 n m u c r q : (r < D)%N -> (q < D)%N ->
  ft_add_block A (r0 * D) (c0 * D) (n * D) (m * D) B (u * D + r)%N (c * D + q)%N =
  A (u * D + r)%N (c * D + q)%N +
  (if (r0 <= u < r0 + n)%N && (c0 <= c < c0 + m)%N
   then B ((u - r0) * D + r)%N ((c - c0) * D + q)%N else 0).
Proof.
move=> rD qD; rewrite /ft_add_block andbA !grid_range //.
case: ifP => [/andP[/andP[h1 _] /andP[h2 _]]|_]; last by rewrite addr0.
congr (_ + B _ _); rewrite mulnBl.
  by rewrite -addnBAC // leq_mul2r h1 orbT.
by rewrite -addnBAC // leq_mul2r h2 orbT.
Qed.

Lemma ft_add_block_grid1 (A B : mat F) r0 c0 u c r q : (r < D)%N -> (q < D)%N ->
  ft_add_block A (r0 * D) (c0 * D) D D B (u * D + r)%N (c * D + q)%N =
  A (u * D + r)%N (c * D + q)%N + (if (u == r0) && (c == c0) then B r q else 0).
Proof.
move=> rD qD; have := ft_add_block_grid A B r0 c0 1 1 u c rD qD; rewrite !mul1n => ->.
rewrite !addn1 !ltnS -!eqn_leq eq_sym [c0 == c]eq_sym; case: ifP => // /andP[/eqP -> /eqP ->].
by rewrite !subnn.
Qed.

Lemma addBlockToBlockE dense (A Q : mat F) a q n u c r p : (r < D)%N -> (p < D)%N ->
  ft_addBlockToBlock dense D A a Q q n (u * D + r)%N (c * D + p)%N =
  A (u * D + r)%N (c * D + p)%N +
  (if (a <= u < a + n)%N && (a <= c < a + n)%N
   then Q ((u - a + q) * D + r)%N ((c - a + q) * D + p)%N else 0).
Proof.
move=> rD pD; rewrite /ft_addBlockToBlock; case: dense.
  rewrite ft_add_block_grid //; case: ifP => // _; rewrite /get_block.
  by congr (_ + Q _ _); rewrite addnA -mulnDl; congr (_ * _ + _)%N; rewrite addnC.
have row i m (X : mat F) : floop 0 m (fun j A =>
         ft_add_block A ((a + i) * D) ((a + j) * D) D D
           (get_block Q ((q + i) * D) ((q + j) * D))) X (u * D + r)%N (c * D + p)%N =
    X (u * D + r)%N (c * D + p)%N + (if (u == a + i)%N && (a <= c < a + m)%N then
        Q ((q + i) * D + r)%N ((c - a + q) * D + p)%N else 0).
  elim: m => [|m IH].
    by rewrite floop_nil // addn0 [(a <= c < a)%N](_ : _ = false) ?andbF ?addr0 //; lia.
  rewrite floopSr // ft_add_block_grid1 // IH -addrA; congr (_ + _).
  have [_|ne] := eqVneq u (a + i)%N; last by rewrite /= addr0.
  have [->|nc] := eqVneq c (a + m)%N; rewrite /=.
    rewrite [(a <= a + m < a + m)%N](_ : _ = false); last by lia.
    rewrite [(a <= a + m < a + m.+1)%N](_ : _ = true); last by lia.
    by rewrite add0r /get_block addKn [(m + q)%N]addnC.
  rewrite addr0 [(a <= c < a + m.+1)%N](_ : _ = (a <= c < a + m)%N) //.
  move: nc; clear; lia.
have H : forall m, floop 0 m (fun i A => floop 0 n (fun j A =>
         ft_add_block A ((a + i) * D) ((a + j) * D) D D
           (get_block Q ((q + i) * D) ((q + j) * D))) A) A (u * D + r)%N (c * D + p)%N =
    A (u * D + r)%N (c * D + p)%N + (if (a <= u < a + m)%N && (a <= c < a + n)%N then
        Q ((u - a + q) * D + r)%N ((c - a + q) * D + p)%N else 0).
  elim=> [|m IH].
    by rewrite floop_nil // addn0 [(a <= u < a)%N](_ : _ = false) /= ?addr0 //; lia.
  rewrite floopSr // row IH -addrA; congr (_ + _).
  have [->|ne] := eqVneq u (a + m)%N; rewrite /=.
    rewrite [(a <= a + m < a + m)%N](_ : _ = false); last by lia.
    rewrite [(a <= a + m < a + m.+1)%N](_ : _ = true); last by lia.
    by rewrite /= add0r addKn [(m + q)%N]addnC.
  rewrite addr0 [(a <= u < a + m.+1)%N](_ : _ = (a <= u < a + m)%N) //.
  move: ne; clear; lia.
exact: H.
Qed.

Lemma addSegmentsE dense (b v : vec F) a n u r : (r < D)%N ->
  ft_addSegments dense D b a v n (u * D + r)%N =
  b (u * D + r)%N + (if (a <= u < a + n)%N then v ((u - a) * D + r)%N else 0).
Proof.
move=> rD; rewrite /ft_addSegments; case: dense.
  rewrite grid_range //; case: ifP => [/andP[h _]|_]; last by rewrite addr0.
  by congr (_ + v _); rewrite mulnBl -addnBAC // leq_mul2r h orbT.
elim: n => [|n IH].
  by rewrite floop_nil // addn0 [(a <= u < a)%N](_ : _ = false) ?addr0 //; lia.
rewrite floopSr // grid_bounds // IH.
have [->|ne] := eqVneq u (a + n)%N.
  rewrite [(a <= a + n < a + n)%N](_ : _ = false); last by lia.
  rewrite [(a <= a + n < a + n.+1)%N](_ : _ = true); last by lia.
  by rewrite addr0 /get_segment !addKn.
rewrite [(a <= u < a + n.+1)%N](_ : _ = (a <= u < a + n)%N) //.
move: ne; clear; lia.
Qed.
End Grid.

(* Vertices are numbered by position; vertices f .. f+N-1 are free. *)
Section Window.
Variable F : realFieldType.
Variables (D k n f N : nat).
Hypothesis D0 : (0 < D)%N.
Hypothesis fN : (f + N <= n)%N.
Notation field := (nat -> nat -> F).

(* the field that is h on the free vertices and zero elsewhere *)
Definition ext (h : vec F) : field := fun v r =>
  if (f <= v < f + N)%N then h ((v - f) * D + r)%N else 0.
(* the part of a field that is relevant to the window starting at a *)
Definition loc (a : nat) (X : field) : vec F := fun q => X (a + q %/ D)%N (q %% D)%N.

Lemma grid_lt m u r : (r < D)%N -> (u < m)%N -> (u * D + r < m * D)%N.
Proof.
move=> rD um; apply: (@leq_trans (u.+1 * D)%N); first by rewrite mulSnr ltn_add2l.
by rewrite leq_mul2r um orbT.
Qed.
Lemma grid_div u r : (r < D)%N -> ((u * D + r) %/ D = u)%N.
Proof. by move=> rD; rewrite divnMDl // divn_small // addn0. Qed.
Lemma grid_mod u r : (r < D)%N -> ((u * D + r) %% D = r)%N.
Proof. by move=> rD; rewrite modnMDl modn_small. Qed.

Lemma win_sum a (h psi : vec F) : (a + k <= n)%N ->
  fsum (N * D) (fun R => h R * (if (a <= f + R %/ D < a + k)%N
     then psi ((f + R %/ D - a) * D + R %% D)%N else 0))
  = fsum (k * D) (fun q => loc a (ext h) q * psi q).
Proof.
move=> an; rewrite !fsum_nested.
transitivity (fsum N (fun u => if (a <= f + u < a + k)%N
   then fsum D (fun r => h ((f + u - f) * D + r)%N * psi ((f + u - a) * D + r)%N) else 0)).
  apply: eq_fsum => u uN; case: ifP => h1.
    by apply: eq_fsum => r rD; rewrite grid_div // grid_mod // h1 addKn.
  by rewrite fsum0 // => r rD; rewrite grid_div // h1 mulr0.
rewrite (fsum_two (fun v => fsum D (fun r => h ((v - f) * D + r)%N * psi ((v - a) * D + r)%N)) fN an).
apply: eq_fsum => j jk; case: ifP => h1.
  by apply: eq_fsum => r rD; rewrite /loc /ext grid_div // grid_mod // h1 addKn.
by rewrite fsum0 // => r rD; rewrite /loc /ext grid_div // h1 mul0r.
Qed.

(* contribution of one segment to the matrix and to the right-hand side *)
Definition contrib (a : nat) (Q : mat F) : mat F := fun R C =>
  if (a <= f + R %/ D < a + k)%N && (a <= f + C %/ D < a + k)%N
  then Q ((f + R %/ D - a) * D + R %% D)%N ((f + C %/ D - a) * D + C %% D)%N else 0.
Definition contribv (a : nat) (v : vec F) : vec F := fun R =>
  if (a <= f + R %/ D < a + k)%N then v ((f + R %/ D - a) * D + R %% D)%N else 0.

Lemma bil_contrib a Q (h x : vec F) : (a + k <= n)%N ->
  bil (N * D) (N * D) h (contrib a Q) x
  = bil (k * D) (k * D) (loc a (ext h)) Q (loc a (ext x)).
Proof.
move=> an; rewrite /bil.
transitivity (fsum (N * D) (fun R => h R * (if (a <= f + R %/ D < a + k)%N
   then (fun p => fsum (k * D) (fun q => loc a (ext x) q * Q p q))
          ((f + R %/ D - a) * D + R %% D)%N else 0))).
  apply: eq_fsum => R _; case: ifP => h1; last first.
    by rewrite mulr0 fsum0 // => C _; rewrite /contrib h1 mulr0 mul0r.
  rewrite -(@win_sum a x (Q _)) // fsum_mull; apply: eq_fsum => C _.
  by rewrite /contrib h1 /= -mulrA; congr (_ * _); rewrite mulrC.
etransitivity; first exact: (win_sum h (fun p => fsum (k * D) (fun q => loc a (ext x) q * Q p q)) an).
apply: eq_fsum => p _; rewrite fsum_mull; apply: eq_fsum => q _.
by rewrite mulrA mulrAC.
Qed.

Lemma dot_contrib a (v : vec F) (h : vec F) : (a + k <= n)%N ->
  fsum (N * D) (fun R => h R * contribv a v R) = fsum (k * D) (fun q => loc a (ext h) q * v q).
Proof. exact: win_sum. Qed.
End Window.

Section Motion.
Variables (F : realFieldType) (T : realDomainType).
Variables (dbl : T -> F) (one : T).
Hypothesis et : exact_time dbl one.
Variables (k D : nat) (kps : seq (T * vec F)).
Hypothesis gd : good k kps.
Hypothesis D0 : (0 < D)%N.
Notation n := (size kps).
Notation cs := (canon dbl k kps).
Notation kk := (kp_knot kps).
Notation sc := (sec dbl one).
Notation st := (fun j => sc (kk j)).
Let k0 : (0 < k)%N. Proof. by case/and3P: gd. Qed.
Let sz : (2 * k <= n)%N. Proof. by case/and3P: gd. Qed.
Variables f N : nat.
Hypothesis fN : (f + N <= n)%N.

Notation pt := (fun v r => (nth kp0 kps v).2 r).
(* the points of the vertices that are not free *)
Definition fixedf : nat -> nat -> F := fun v r => if (f <= v < f + N)%N then 0 else pt v r.

Lemma subtractFixedE dense s Q (b : vec F) : (k <= s.+1)%N -> (s + k < n)%N ->
  let a := (s.+1 - k)%N in
  let br := a%:Z - f%:Z in
  let left := Num.max 0 br in
  let right := Num.min N%:Z (k%:Z + br) - 1 in
  0 < right - left + 1 ->
  exists2 b', ft_subtractFixed dense cs D s Q br left right b = Ok b' &
  forall R, (R < N * D)%N -> b' R = b R - contribv D k f a
     (fun p => fsum (k * D) (fun q => Q p q * loc D a fixedf q)) R.
Proof.
move=> s1 s2 a br left right pos; rewrite /ft_subtractFixed.
set q := absz (left - br); set num := absz (right - left + 1).
have aE : (s.+1 = a + k)%N by rewrite /a; move: s1; clear; lia.
pose term i R := (if (f <= a + i < f + N)%N then 0 else
   contribv D k f a (fun p => fsum D (fun c => Q p (i * D + c)%N * pt (a + i)%N c)) R).
have := @oloop_ind (vec F) 0 k (fun x b =>
    let i := (k - 1 - x)%N in
    if (right - br + 1 <= i%:Z) || (i%:Z <= - br - 1) then
      need (x <= s)%N ;
      need (s < size (ds_segs cs))%N ;
      let v := sg_pt (seg_nth (ds_segs cs) (s - x)) in
      let q := absz (left - br) in
      Ok (ft_addSegments dense D b (absz left)
            (fun r => - fsum D (fun c => Q (q * D + r)%N (i * D + c)%N * v c)) num)
    else Ok b) b
  (fun m b' => forall R, (R < N * D)%N -> b' R = b R - fsum m (fun x => term (k - 1 - x)%N R)).
case=> //.
- by move=> R _; rewrite subr0.
- move=> x b' /andP[_ xk] Hb.
  set i := (k - 1 - x)%N.
  have ik : (i < k)%N by rewrite /i; move: k0; clear; lia.
  have condE : ((right - br + 1 <= i%:Z) || (i%:Z <= - br - 1)) = ~~ (f <= a + i < f + N)%N.
    rewrite /right /br; move: ik pos; rewrite /right /left /br; clear; lia.
  rewrite /= condE; case: ifP => fi; last first.
    eexists; first by reflexivity.
    move=> R RN; rewrite fsumS Hb // /term -/i; move/negbFE: fi => ->.
    by rewrite addr0.
  rewrite (_ : (x <= s)%N); last by move: xk s1; clear; lia.
  rewrite size_canon (_ : (s < n)%N) /=; last by move: s2; clear; lia.
  eexists; first by reflexivity.
  move=> R RN; rewrite fsumS opprD addrA -Hb //.
  have rD : (R %% D < D)%N by rewrite ltn_mod.
  have uN : (R %/ D < N)%N by rewrite ltn_divLR.
  rewrite {1 2}(divn_eq R D) addSegmentsE //; congr (_ + _).
  rewrite /term -/i (negbTE fi) /contribv.
  have -> : (absz left <= R %/ D < absz left + num)%N = (a <= f + R %/ D < a + k)%N.
    move: uN pos; rewrite /num /left /right /br; move: (R %/ D)%N => u; clear; lia.
  case: ifP => [/andP[h1 h2]|_]; last by rewrite oppr0.
  congr (- _); apply: eq_fsum => c cD.
  have sx : (s - x = a + i)%N by rewrite /i; move: aE xk; clear; lia.
  rewrite sx canon_pt; last by move: aE ik s2; clear; lia.
  congr (Q _ _ * _).
  have -> : (q * D + ((R %/ D - absz left) * D + R %% D))%N = ((q + (R %/ D - absz left)) * D + R %% D)%N.
    by rewrite mulnDl addnA.
  congr (_ * _ + _)%N; move: h1 h2 uN; rewrite /q /left /br; move: (R %/ D)%N => u; clear; lia.
move=> b' -> Hb; exists b' => // R RN; rewrite Hb //; congr (_ - _).
rewrite fsumE (reindex_inj rev_ord_inj) /=.
transitivity (\sum_(j < k) term j R).
  apply: eq_bigr => j _; congr (term _ R); have := ltn_ord j; clear; lia.
rewrite /contribv; case: ifP => h1; last first.
  by rewrite big1 // => j _; rewrite /term /contribv h1; case: ifP.
rewrite fsum_nested fsumE; apply: eq_bigr => j _; rewrite /term /contribv h1.
case: ifP => h2.
  by rewrite fsum0 // => r rD; rewrite /loc /fixedf grid_div // h2 mulr0.
by apply: eq_fsum => r rD; rewrite /loc /fixedf grid_div // grid_mod // h2.
Qed.
Definition qf (lambda : F) (s : nat) : vec F -> vec F -> F :=
  qform k D st s (Mmat st k s) lambda 2.

Lemma step_matrix dense s (Q A : mat F) : (k <= s.+1)%N -> (s + k < n)%N ->
  let a := (s.+1 - k)%N in
  let br := a%:Z - f%:Z in
  let left := Num.max 0 br in
  let num := Num.min N%:Z (k%:Z + br) - 1 - left + 1 in
  let A' := if [&& dense, 0 <= br & br <= N%:Z - k%:Z]
            then ft_add_block A (`|br| * D) (`|br| * D) (k * D) (k * D) Q
            else if 0 < num
            then ft_addBlockToBlock dense D A (absz left) Q (absz (left - br)) (absz num)
            else A in
  forall R C, (R < N * D)%N -> (C < N * D)%N -> A' R C = A R C + contrib D k f a Q R C.
Proof.
move=> s1 s2 a br left num A' R C RN CN.
have rD : (R %% D < D)%N by rewrite ltn_mod.
have cD : (C %% D < D)%N by rewrite ltn_mod.
have uN : (R %/ D < N)%N by rewrite ltn_divLR.
have vN : (C %/ D < N)%N by rewrite ltn_divLR.
rewrite /contrib; move: uN vN; set u := (R %/ D)%N; set v := (C %/ D)%N => uN vN.
rewrite /A'; case: ifP => [/and3P[_ b0 bN]|_].
  rewrite {1 2}(divn_eq R D) {1 2}(divn_eq C D) ft_add_block_grid //; congr (_ + _).
  rewrite -/u -/v.
  have cE z : (`|br| <= z < `|br| + k)%N = (a <= f + z < a + k)%N.
    by move: b0; rewrite /br; clear; lia.
  rewrite !cE; case: ifP => [/andP[/andP[h1 _] /andP[h2 _]]|//].
  by congr (Q (_ * _ + _)%N (_ * _ + _)%N); move: b0 h1 h2; rewrite /br; clear; lia.
case: ifP => np; last first.
  rewrite [X in _ + X](_ : _ = 0) ?addr0 //; case: ifP => // /andP[/andP[h1 h2] _].
  by move: np h1 h2 uN; rewrite /num /left /br; clear; lia.
rewrite {1 2}(divn_eq R D) {1 2}(divn_eq C D) addBlockToBlockE //; congr (_ + _).
rewrite -/u -/v.
have cE z : (z < N)%N -> (absz left <= z < absz left + absz num)%N = (a <= f + z < a + k)%N.
  by move: np; rewrite /num /left /br; clear; lia.
rewrite !cE //; case: ifP => [/andP[/andP[h1 h1'] /andP[h2 h2']]|//].
by congr (Q (_ * _ + _)%N (_ * _ + _)%N); move: h1 h2 np h1' h2' uN vN; rewrite /num /left /br; clear; lia.
Qed.

Lemma addCurveE dense lambda start e (A : mat F) (b : vec F) : (start <= e)%N ->
  (forall s, (start <= s < e)%N -> (k <= s.+1)%N /\ (s + k < n)%N) ->
  exists A' b', [/\ ft_addCurveQuadraticIntegralDiagTo dbl one dense cs D start e
      ((start.+1 - k)%N%:Z - f%:Z) (fun _ => lambda) 2 N A b = Ok (A', b'),
    forall h x, bil (N * D) (N * D) h A' x = bil (N * D) (N * D) h A x
      + fsum (e - start) (fun j => let a := ((start + j).+1 - k)%N in
          qf lambda (start + j) (loc D a (ext D f N h)) (loc D a (ext D f N x)))
    & forall h, fsum (N * D) (fun R => h R * b' R) = fsum (N * D) (fun R => h R * b R)
      - fsum (e - start) (fun j => let a := ((start + j).+1 - k)%N in
          qf lambda (start + j) (loc D a (ext D f N h)) (loc D a fixedf))].
Proof.
move=> se val; rewrite /ft_addCurveQuadraticIntegralDiagTo se.
have := @oloop_ind (mat F * vec F) start e (fun sIt (st : mat F * vec F) =>
    let: (A, b) := st in
    let blockRow := (start.+1 - k)%N%:Z - f%:Z + (sIt - start)%N%:Z in
    do Q <- ft_segmentQuadraticIntegralDiag dbl one cs D (fun _ => lambda) sIt 2 ;
    if [&& dense, 0 <= blockRow & blockRow <= N%:Z - k%:Z] then
      Ok (ft_add_block A (`|blockRow| * D) (`|blockRow| * D) (k * D) (k * D) Q, b)
    else
      let left := Num.max 0 blockRow in
      let right := Num.min N%:Z (k%:Z + blockRow) - 1 in
      let num := right - left + 1 in
      if 0 < num then
        let A' := ft_addBlockToBlock dense D A (absz left) Q (absz (left - blockRow)) (absz num) in
        if num != k%:Z then
          do b' <- ft_subtractFixed dense cs D sIt Q blockRow left right b ;
          Ok (A', b')
        else Ok (A', b)
      else Ok (A, b)) (A, b)
  (fun m Ab => (forall h x, bil (N * D) (N * D) h Ab.1 x = bil (N * D) (N * D) h A x
      + fsum (m - start) (fun j => let a := ((start + j).+1 - k)%N in
          qf lambda (start + j) (loc D a (ext D f N h)) (loc D a (ext D f N x))))
    /\ forall h, fsum (N * D) (fun R => h R * Ab.2 R) = fsum (N * D) (fun R => h R * b R)
      - fsum (m - start) (fun j => let a := ((start + j).+1 - k)%N in
          qf lambda (start + j) (loc D a (ext D f N h)) (loc D a fixedf))).
case=> //.
- by rewrite subnn /fsum; split=> *; rewrite ?addr0 ?subr0.
- move=> s [A1 b1] sr [HA Hb]; have [s1 s2] := val _ sr; have [ss sE] := andP sr.
  have aE : (s.+1 = (s.+1 - k) + k)%N by move: s1; clear; lia.
  have ak : (s.+1 - k + k <= n)%N by move: s1 s2; clear; lia.
  have kst : (k <= start.+1)%N.
    by have [] // := val start; rewrite leqnn (leq_ltn_trans ss sE).
  have [Q hQ HQ] := segmentE et D gd lambda 2 s1 s2.
  rewrite /= hQ [obind (Ok _) _]/=.
  have brE : (start.+1 - k)%N%:Z - f%:Z + (s - start)%N%:Z = (s.+1 - k)%N%:Z - f%:Z.
    by move: ss kst; clear; lia.
  rewrite brE; have SM := step_matrix dense Q A1 s1 s2; move: SM.
  set a := (s.+1 - k)%N in ak *; set br := a%:Z - f%:Z; set left := Num.max 0 br.
  set right := Num.min N%:Z (k%:Z + br) - 1; set num := right - left + 1; rewrite /= => SM.
  have msE : ((s.+1 - start) = (s - start).+1)%N by move: ss; clear; lia.
  have stE : (start + (s - start) = s)%N by move: ss; clear; lia.
  have mat1 (A' : mat F) : (forall R C, (R < N * D)%N -> (C < N * D)%N ->
      A' R C = A1 R C + contrib D k f a Q R C) ->
    forall h x, bil (N * D) (N * D) h A' x = bil (N * D) (N * D) h A x
      + fsum (s.+1 - start) (fun j => let a := ((start + j).+1 - k)%N in
          qf lambda (start + j) (loc D a (ext D f N h)) (loc D a (ext D f N x))).
    move=> HA' h x; rewrite msE fsumS addrA -HA /= stE -/a /qf -HQ -(bil_contrib D0 fN) //.
    rewrite /bil -fsumD; apply: eq_fsum => R RN; rewrite -fsumD; apply: eq_fsum => C CN.
    by rewrite HA' // mulrDr mulrDl.
  have vec1 (b' : vec F) : (forall R, (R < N * D)%N ->
      b' R = b1 R - contribv D k f a (fun p => fsum (k * D) (fun q => Q p q * loc D a fixedf q)) R) ->
    forall h, fsum (N * D) (fun R => h R * b' R) = fsum (N * D) (fun R => h R * b R)
      - fsum (s.+1 - start) (fun j => let a := ((start + j).+1 - k)%N in
          qf lambda (start + j) (loc D a (ext D f N h)) (loc D a fixedf)).
    move=> Hb' h; rewrite msE fsumS opprD addrA -Hb /= stE -/a /qf -HQ.
    transitivity (fsum (N * D) (fun R => h R * b1 R) - fsum (N * D) (fun R => h R *
        contribv D k f a (fun p => fsum (k * D) (fun q => Q p q * loc D a fixedf q)) R)).
      by rewrite -fsumB; apply: eq_fsum => R RN; rewrite Hb' // mulrBr.
    congr (_ - _); rewrite (dot_contrib D0 fN) //; apply: eq_fsum => p _.
    by rewrite fsum_mull; apply: eq_fsum => q _; rewrite mulrA.
  have full : (forall i, (i < k)%N -> (f <= a + i < f + N)%N) -> forall R, (R < N * D)%N ->
      b1 R = b1 R - contribv D k f a (fun p => fsum (k * D) (fun q => Q p q * loc D a fixedf q)) R.
    move=> al R RN; rewrite [contribv _ _ _ _ _ _](_ : _ = 0) ?subr0 // /contribv.
    case: ifP => // _; rewrite fsum0 // => q qk.
    by rewrite /loc /fixedf al ?mulr0 // ltn_divLR.
  move: SM; case: ifP => [/and3P[dn b0 bN]|_] SM.
    eexists; first by reflexivity.
    split; first exact: mat1.
    by apply: vec1; apply: full => i ik; move: ik b0 bN; rewrite /br; clear; lia.
  move: SM; case: ifP => np SM; last first.
    eexists; first by reflexivity.
    split; first exact: mat1.
    apply: vec1 => R RN; rewrite /contribv ifF ?subr0 //.
    have uN : (R %/ D < N)%N by rewrite ltn_divLR.
    by apply/negbTE; move: uN np; rewrite /num /right /left /br; move: (R %/ D)%N => u; clear; lia.
  case: ifP => nk.
    have [b' -> Hb'] := @subtractFixedE dense s Q b1 s1 s2 np.
    rewrite /=; eexists; first by reflexivity.
    by split; [exact: mat1|exact: vec1].
  eexists; first by reflexivity.
  split; first exact: mat1.
  apply: vec1; apply: full => i ik; move: nk ik; rewrite /num /right /left /br; clear; lia.
by move=> [A' b'] -> [HA Hb]; exists A', b'; split.
Qed.

(* the form of the whole curve *)
Definition total (lambda : F) (X Y : nat -> nat -> F) : F :=
  fsum (n - 2 * k + 1) (fun j => qf lambda (k - 1 + j) (loc D j X) (loc D j Y)).

Lemma qf_zero lambda s (x y : vec F) : (forall q, (q < k * D)%N -> x q = 0) ->
  qf lambda s x y = 0.
Proof.
move=> h; rewrite /qf (@eq_qform _ _ _ _ _ _ _ _ _ _ (fun _ => 0) y) //.
have := qform_linl k D st s (Mmat st k s) lambda 2 (fun _ => 0) (fun _ => 0) y (-1).
rewrite (@eq_qform _ _ _ _ _ _ _ _ (fun q => _) _ (fun _ => 0) y) // => [-> |q _].
  by rewrite mulN1r subrr.
by rewrite mulr0 addr0.
Qed.

(* segments that do not meet the free vertices do not count *)
Lemma total_range lambda (h : vec F) (Y : nat -> nat -> F) start e :
  (k - 1 <= start)%N -> (start <= e)%N -> (e <= n - k)%N ->
  (start = k - 1 \/ start <= f)%N -> (e = n - k \/ f + N + k <= e.+1)%N ->
  fsum (e - start) (fun j => let a := ((start + j).+1 - k)%N in
    qf lambda (start + j) (loc D a (ext D f N h)) (loc D a Y))
  = total lambda (ext D f N h) Y.
Proof.
move=> h1 h2 h3 h4 h5; rewrite /total [RHS](@fsum_window _ _ (start - (k - 1)) (e - start)).
- apply: eq_fsum => j je /=.
  have -> : ((start + j).+1 - k = start - (k - 1) + j)%N by move: h1 k0; clear; lia.
  by have -> : (k - 1 + (start - (k - 1) + j) = start + j)%N by move: h1; clear; lia.
- by move: h1 h2 h3 k0 sz; clear; lia.
move=> j jn jo; apply: qf_zero => q qk; rewrite /loc /ext ifF //.
have : (q %/ D < k)%N by rewrite ltn_divLR.
move: (q %/ D)%N => q'; apply: contraTF => /andP[g1 g2]; rewrite -leqNgt.
by move: jn jo g1 g2 h1 h2 h3 h4 h5 k0 sz; clear; lia.
Qed.
End Motion.

Section MotionCall.
Variables (F : realFieldType) (T : realDomainType).
Variables (dbl : T -> F) (one : T).
Hypothesis et : exact_time dbl one.
Variables (k D : nat) (kps : seq (T * vec F)).
Hypothesis gd : good k kps.
Hypothesis D0 : (0 < D)%N.
Notation n := (size kps).
Notation cs := (canon dbl k kps).
Notation kk := (kp_knot kps).
Let k0 : (0 < k)%N. Proof. by case/and3P: gd. Qed.
Let sz : (2 * k <= n)%N. Proof. by case/and3P: gd. Qed.
Variables (t0 tl : T) (i0 il : nat).
Hypothesis sg0 : is_segment k kps t0 i0.
Hypothesis sgl : is_segment k kps tl il.
Hypothesis i0l : (i0 <= il)%N.

Lemma motionE dense lambda (A : mat F) (b : vec F) :
  let f := (i0.+1 - k)%N in let N := (il.+1 - f)%N in
  exists A' b', [/\ ft_motion dbl one dense cs D lambda 0 t0 tl N A b = Ok (A', b'),
    forall h x, bil (N * D) (N * D) h A' x = bil (N * D) (N * D) h A x
      + total dbl one k D kps lambda (ext D f N h) (ext D f N x)
    & forall h, fsum (N * D) (fun R => h R * b' R) = fsum (N * D) (fun R => h R * b R)
      - total dbl one k D kps lambda (ext D f N h) (fixedf kps f N)].
Proof.
move=> f N; have [a1 a2 _ _] := sg0; have [l1 l2 _ _] := sgl.
have fN : (f + N <= n)%N by rewrite /N /f; move: a1 i0l l2; clear; lia.
have fN' : (f + N = il.+1)%N by rewrite /N /f; move: a1 i0l l2; clear; lia.
rewrite /ft_motion; case: eqP => [->|l0].
  have z X Y : total dbl one k D kps 0 X Y = 0.
    by rewrite /total fsum0 // => j _; rewrite /qf /qform fsum0 // => r _; rewrite mul0r.
  by exists A, b; split=> // *; rewrite z ?addr0 ?subr0.
have okb A1 B1 (a : A1) (g : A1 -> outcome B1) : obind (Ok a) g = g a by [].
have pb : pos_of (ds_segs cs) (ds_begin cs) = Ok (k - 1)%N.
  by apply: (canon_pos dbl gd); move: k0 sz; clear; lia.
have pe : pos_of (ds_segs cs) (ds_end cs) = Ok (n - k)%N.
  by apply: (canon_pos dbl gd); move: k0 sz; clear; lia.
rewrite (segIterE dbl gd sg0) (segIterE dbl gd sgl) pb pe !okb size_canon.
set mc := 0%:Z - (k%:Z - 1).
have mcE : (if mc < 0 then Ok (k - 1)%N else Ok il)
  = Ok (if (1 < k)%N then k - 1 else il)%N :> outcome nat.
  by rewrite /mc; have -> : (0%:Z - (k%:Z - 1) < 0) = (1 < k)%N by [move: k0; clear; lia]; case: ifP.
rewrite mcE okb.
pose c := minn (k - 1) (i0 - (k - 1)).
have mv : moveIterator n i0 (if (1 < k)%N then k - 1 else il)%N mc = Ok ((i0 - c)%N, - c%:Z).
  case: ltnP => k1.
    rewrite moveIterator_down; [|by move: a1; clear; lia|by rewrite /mc; move: k0; clear; lia].
    by have -> : `|mc|%N = (k - 1)%N by rewrite /mc; move: k0; clear; lia.
  have kE : k = 1%N by move: k1 k0; clear; lia.
  have -> : mc = 0 by rewrite /mc; move: kE; clear; lia.
  have -> : c = 0%N by rewrite /c; move: kE; clear; lia.
  by rewrite /moveIterator eqxx subn0 oppr0.
rewrite mv okb okb.
rewrite moveIterator_up; [|by move: l2 k0 sz; clear; lia..].
rewrite okb absz_nat.
have -> : (mc - - c%:Z <= 0) = true by rewrite /mc /c; move: k0; clear; lia.
set e := (il + minn k (n - k - il))%N.
have siE : - c%:Z = ((i0 - c).+1 - k)%N%:Z - f%:Z by rewrite /f /c; move: a1 k0; clear; lia.
have ie : (i0 - c <= e)%N by rewrite /e; move: i0l; clear; lia.
have val s : (i0 - c <= s < e)%N -> (k <= s.+1)%N /\ (s + k < n)%N.
  by rewrite /e /c; move: a1 l2 k0 sz; clear; lia.
have [A' [b' [H1 H2 H3]]] := addCurveE et gd D0 fN dense lambda A b ie val.
exists A', b'; rewrite siE; split=> [//|h x|h].
- rewrite H2 (total_range dbl one gd D0) //; rewrite ?/e ?/c ?/f; 
    move: a1 a2 l1 l2 k0 sz i0l fN'; rewrite /N /f; clear; lia.
rewrite H3 (total_range dbl one gd D0) //; rewrite ?/e ?/c ?/f; 
    move: a1 a2 l1 l2 k0 sz i0l fN'; rewrite /N /f; clear; lia.
Qed.
End MotionCall.
