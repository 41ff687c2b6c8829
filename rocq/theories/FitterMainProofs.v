(* Optimality of the fitted control vertices. *)
From mathcomp Require Import all_ssreflect all_algebra.
From mathcomp.algebra_tactics Require Import ring.
From mathcomp.zify Require Import zify.
From Verif Require Import Prelude CoxDeBoor CoxDeBoorProofs BSplineModel BSplineSpec
  BSplineProofs BSplineEvalProofs BSplineIntegralProofs BSplineQuadProofs LinSolve
  DMModel DMSpec DMProofs DMEvalProofs DMAccessProofs KnotModel FitterModel FitterSpec FitterAlg
  FitterQuadProofs FitterSysProofs FitterRowProofs.
Set Implicit Arguments.
Unset Strict Implicit.
Unset Printing Implicit Defensive.
Import GRing.Theory Num.Theory Order.Theory.
Local Open Scope ring_scope.
#[local] Arguments fsum : simpl never.

Section Main.
Variables (F : realFieldType) (T : realDomainType).
Variables (dbl : T -> F) (one : T).
Hypothesis et : exact_time dbl one.
Variables (k D : nat) (kps : seq (T * vec F)).
Hypothesis gd : good k kps.
Hypothesis D0 : (0 < D)%N.
Notation n := (size kps).
Notation cs := (canon dbl k kps).
Notation kk := (kp_knot kps).
Notation sc := (sec dbl one).
Notation st := (fun j => sc (kk j)).
Let k0 : (0 < k)%N. Proof. by case/and3P: gd. Qed.
Let sz : (2 * k <= n)%N. Proof. by case/and3P: gd. Qed.
Notation pt := (fun v r => (nth kp0 kps v).2 r).
Notation sw := (seg_weight dbl one k kps).
Notation total := (total dbl one k D kps).
Notation field := (nat -> nat -> F).

Lemma st_le i j : (i <= j)%N -> (j < n)%N -> st i <= st j.
Proof. by move=> h1 h2; rewrite (sec_le et); apply: (kk_le gd). Qed.
Lemma st_lt i j : (i < j)%N -> (j < n)%N -> st i < st j.
Proof. by move=> h1 h2; rewrite (sec_lt et); apply: (kk_lt gd). Qed.

Lemma total_linl lambda (X Y Z : field) t :
  total lambda (fun v r => X v r + t * Y v r) Z = total lambda X Z + t * total lambda Y Z.
Proof.
rewrite /FitterSysProofs.total fsum_mull -fsumD; apply: eq_fsum => j _.
exact: (qform_linl k D st (k - 1 + j) (Mmat st k (k - 1 + j)) lambda 2 (loc D j X) (loc D j Y)).
Qed.
Lemma total_sym lambda (X Y : field) : total lambda X Y = total lambda Y X.
Proof. by apply: eq_fsum => j _; apply: qform_sym. Qed.
Lemma total_psd lambda (X : field) : 0 <= lambda -> 0 <= total lambda X X.
Proof.
move=> l0; apply: fsum_ge0 => j jn; apply: qform_psd => //.
by apply: st_lt; move: jn k0 sz; clear; lia.
Qed.
Lemma eq_total lambda (X Y X' Y' : field) :
  (forall v r, (v < n)%N -> (r < D)%N -> X v r = X' v r) ->
  (forall v r, (v < n)%N -> (r < D)%N -> Y v r = Y' v r) ->
  total lambda X Y = total lambda X' Y'.
Proof.
move=> hX hY; apply: eq_fsum => j jn; apply: eq_qform => q qk; rewrite /loc.
  have h : (q %/ D < k)%N by rewrite ltn_divLR.
  apply: hX; last by rewrite ltn_pmod.
  by move: jn h k0 sz; clear; move: (q %/ D)%N; lia.
have h : (q %/ D < k)%N by rewrite ltn_divLR.
apply: hY; last by rewrite ltn_pmod.
by move: jn h k0 sz; clear; move: (q %/ D)%N; lia.
Qed.
Lemma total_add lambda (X Y : field) :
  let Z := fun v r => X v r + Y v r in
  total lambda Z Z = total lambda X X + 2%:R * total lambda Y X + total lambda Y Y.
Proof.
move=> Z; have ZE v r : Z v r = X v r + 1 * Y v r by rewrite mul1r.
rewrite (@eq_total _ Z Z (fun v r => X v r + 1 * Y v r) Z) // total_linl.
rewrite [total _ X Z]total_sym [total _ Y Z]total_sym.
rewrite (@eq_total _ Z X (fun v r => X v r + 1 * Y v r) X) // total_linl.
rewrite (@eq_total _ Z Y (fun v r => X v r + 1 * Y v r) Y) // total_linl.
by rewrite [total _ X Y]total_sym; ring.
Qed.
Lemma total_null lambda (X Y : field) : 0 <= lambda -> total lambda X X = 0 ->
  total lambda X Y = 0.
Proof.
move=> l0; apply: (@psd_null _ field (fun a b v r => a v r + b v r) (fun t a v r => t * a v r)).
  by move=> x; apply: total_psd.
have z Z : total lambda (fun _ _ => 0) Z = 0.
  by apply: fsum0 => j _; apply: qf_zero => q _.
have scl t Z : total lambda (fun v r => t * X v r) Z = t * total lambda X Z.
  have := total_linl lambda (fun _ _ => 0) X Z t; rewrite z add0r => <-.
  by apply: eq_total => // v r _ _; rewrite add0r.
have scr t Z : total lambda Z (fun v r => t * X v r) = t * total lambda X Z.
  by rewrite total_sym scl.
move=> t; rewrite total_add scl scl scr; ring.
Qed.

(* the cost of a spline with the same knots *)
Variables (times : seq T) (pts : seq (vec F)) (w : nat -> F) (sg : nat -> nat).
Hypothesis sgE : forall i, (i < size pts)%N -> is_segment k kps (nth 0 times i) (sg i).
Definition resid (X : field) (i r : nat) : F :=
  w i * (fsum k (fun j => sw (nth 0 times i) (sg i) 0 j * X ((sg i).+1 - k + j)%N r)
         - nth zerov pts i r).
Definition cost_val lambda (X : field) : F :=
  \sum_(i < size pts) \sum_(r < D) resid X i r ^+ 2 + total lambda X X.

Section Cost.
Variable kps2 : seq (T * vec F).
Hypothesis kk2 : map fst kps2 = map fst kps.
Notation pt2 := (fun v r => (nth kp0 kps2 v).2 r).
Lemma size2 : size kps2 = n.
Proof. by rewrite -(size_map fst kps2) kk2 size_map. Qed.
Lemma knot2 j : kp_knot kps2 j = kk j.
Proof.
have h (l : seq (T * vec F)) : kp_knot l j = nth 0 (map fst l) j.
  rewrite /kp_knot; case: (ltnP j (size l)) => h; first by rewrite (nth_map kp0).
  by rewrite !nth_default ?size_map.
by rewrite !h kk2.
Qed.
Lemma segment2 t s : is_segment k kps2 t s <-> is_segment k kps t s.
Proof. by rewrite /is_segment size2 !knot2. Qed.
Lemma piece_value i r : (i < size pts)%N ->
  (dm_piece dbl one k kps2 r (sg i)).[sc (nth 0 times i)]
  = fsum k (fun j => sw (nth 0 times i) (sg i) 0 j * pt2 ((sg i).+1 - k + j)%N r).
Proof.
move=> ip; have [s1 s2 _ _] := sgE ip.
have gd2 : good k kps2 by rewrite /good size2 /increasing kk2.
have := piece_weightE dbl one gd2 r 0 (nth 0 times i) s1; rewrite size2 derivn0 => -> //.
apply: eq_fsum => j _; congr (_ * _); rewrite /dm_weight /seg_weight.
congr (_^`(_)).[_].
by apply: eq_basis_poly => x; rewrite knot2.
Qed.

Let dd s := \sum_(r < D) (dm_piece dbl one k kps2 r s)^`(2) ^+ 2.
Lemma total_integral lambda (P : nat -> {poly F}) :
  (forall s, (k <= s.+1)%N -> (s + k < n)%N -> (P s)^`() = dd s) ->
  total lambda pt2 pt2
  = lambda * fsum (n - 2 * k + 1) (fun j => (P (k - 1 + j)%N).[st (k - 1 + j).+1]
                                            - (P (k - 1 + j)%N).[st (k - 1 + j)%N]).
Proof.
move=> HP; rewrite fsum_mull; apply: eq_fsum => j jn.
have h1 : (k <= (k - 1 + j).+1)%N by move: k0; clear; lia.
have h2 : (k - 1 + j + k < n)%N by move: jn k0 sz; clear; lia.
rewrite /qf (@qform_integral _ k D st (k - 1 + j) k0 _ (Mmat st k (k - 1 + j)) lambda 2
   (loc D j pt2) (fun r => dm_piece dbl one k kps2 r (k - 1 + j)) (P (k - 1 + j)%N)) //.
- by apply: st_lt; move: h2 k0; clear; lia.
- move=> r rD; rewrite (piece_loc et gd kk2 h1 h2 rD).
  have -> // : ((k - 1 + j).+1 - k = j)%N by move: k0; clear; lia.
exact: HP.
Qed.

Lemma cost_valE lambda E : fitter_cost dbl one k D kps2 times pts w lambda E ->
  E = cost_val lambda pt2.
Proof.
move=> [sg2 [G [H1 H2 ->]]]; rewrite /cost_val; congr (_ + _).
  apply: eq_bigr => i _; have ip := ltn_ord i.
  have e : sg2 i = sg i by apply/esym/(segment_unique gd (sgE ip)); apply/segment2; apply: H1.
  apply: eq_bigr => r _; rewrite /resid -piece_value // e //.
have [P HP] : exists P : nat -> {poly F}, forall s, (k <= s.+1)%N -> (s + k < n)%N ->
   (P s)^`() = dd s /\ G (st s) = (P s).[st s] /\ G (st s.+1) = (P s).[st s.+1].
  pose Q := antip (0 : {poly F}).
  have ch m : exists P : nat -> {poly F}, forall s, (s < m)%N -> (k <= s.+1)%N -> (s + k < n)%N ->
   (P s)^`() = dd s /\ G (st s) = (P s).[st s] /\ G (st s.+1) = (P s).[st s.+1].
    elim: m => [|m [P HP]]; first by exists (fun _ => Q).
    case h1: (k <= m.+1)%N; last first.
      exists P => s sm ks; apply: HP => //; move: sm ks h1; clear; lia.
    case h2: (m + k < n)%N; last first.
      exists P => s sm ks sn; apply: HP => //; move: sm sn h2; clear; lia.
    have := H2 m h1; rewrite size2 => /(_ h2)[p p1 p2].
    have le : st m <= st m.+1 by apply: st_le => //; move: h2 k0; clear; lia.
    exists (fun s => if s == m then p else P s) => s sm ks sn.
    case: eqP => [->|ne]; last by apply: HP => //; move: sm ne; clear; lia.
    by split; [exact: p1|split; apply: p2; rewrite ?knot2].
  by have [P HP] := ch n; exists P => s h1 h2; apply: HP => //; move: h2; clear; lia.
rewrite (@total_integral _ P) => [|s h1 h2]; last by have [] := HP s h1 h2.
congr (_ * _); rewrite size2 !knot2.
rewrite -[LHS](_ : fsum (n - 2 * k + 1) (fun j => (fun j => G (st (k - 1 + j)%N)) j.+1
    - (fun j => G (st (k - 1 + j)%N)) j) = _); last first.
  rewrite telescope; congr (G (sc (kk _)) - G (sc (kk _))); move: k0 sz; clear; lia.
apply: eq_fsum => j jn; rewrite addnS.
have h1 : (k <= (k - 1 + j).+1)%N by move: k0; clear; lia.
have h2 : (k - 1 + j + k < n)%N by move: jn k0 sz; clear; lia.
by have [_ [-> ->]] := HP _ h1 h2.
Qed.

Lemma cost_ex lambda : fitter_cost dbl one k D kps2 times pts w lambda (cost_val lambda pt2).
Proof.
pose P s := antip (dd s).
pose clamp s x : F := Num.min (Num.max x (st s)) (st s.+1).
pose m := (n - 2 * k + 1)%N.
pose G x := fsum m (fun j => (P (k - 1 + j)%N).[clamp (k - 1 + j)%N x] - (P (k - 1 + j)%N).[st (k - 1 + j)%N]).
have below s x : (s.+1 < n)%N -> x <= st s -> clamp s x = st s.
  move=> h le; rewrite /clamp (max_idPr le); apply/min_idPl; exact: st_le.
have above s x : (s.+1 < n)%N -> st s.+1 <= x -> clamp s x = st s.+1.
  move=> h le; rewrite /clamp; apply/min_idPr; apply: le_trans le _.
  by rewrite le_maxr lexx.
exists sg, G; split=> [i ip|s h1|].
- by apply/segment2; apply: sgE.
- rewrite size2 => h2; rewrite !knot2; set j0 := (s - (k - 1))%N.
  pose cst := fsum m (fun j => if j == j0 then - (P s).[st s] else
     (P (k - 1 + j)%N).[st (if (j < j0)%N then k - 1 + j.+1 else k - 1 + j)%N]
     - (P (k - 1 + j)%N).[st (k - 1 + j)%N]).
  exists (P s + cst%:P); first by rewrite derivD derivC addr0 antipK.
  move=> x x1 x2; rewrite hornerD hornerC /G /cst.
  have e0 : (P s).[x] = fsum m (fun j => if j == j0 then (P s).[x] else 0).
    rewrite (fsum_pick (j := j0)) ?eqxx // => [|j _ /negbTE -> //].
    by rewrite /j0 /m; move: h1 h2 k0 sz; clear; lia.
  rewrite [in RHS]e0 -fsumD; apply: eq_fsum => j jm.
  have sj : ((k - 1 + j).+1 < n)%N by rewrite /m in jm; move: jm k0 sz; clear; lia.
  case: eqP => [e|ne].
    have -> : (k - 1 + j = s)%N by rewrite e /j0; move: h1; clear; lia.
    congr (_.[_] + _); rewrite /clamp (max_idPl x1); exact/min_idPl.
  rewrite add0r; congr (_.[_] - _); case: ltnP => h.
    rewrite above ?addnS //; apply: le_trans x1; apply: st_le; rewrite ?/j0 in h *; move: h h2; clear; lia.
  apply: below => //; apply: le_trans x2 _; apply: st_le; rewrite ?/j0 in h ne *; move: h ne sj; clear; lia.
rewrite /cost_val; congr (_ + _).
  apply: eq_bigr => i _; apply: eq_bigr => r _; by rewrite /resid -piece_value.
rewrite (@total_integral _ P) => [|s _ _]; last exact: antipK.
congr (_ * _); rewrite size2 !knot2 /G -/m -fsumB; apply: eq_fsum => j jm.
rewrite /m in jm.
have sj : ((k - 1 + j).+1 < n)%N by move: jm k0 sz; clear; lia.
rewrite above //; last by apply: st_le; move: jm k0 sz; clear; lia.
rewrite below //; last by apply: st_le; move: jm k0 sz; clear; lia.
by rewrite subrr subr0.
Qed.
End Cost.

Lemma eq_cost_val lambda (X Y : field) :
  (forall v r, (v < n)%N -> (r < D)%N -> X v r = Y v r) -> cost_val lambda X = cost_val lambda Y.
Proof.
move=> h; rewrite /cost_val (eq_total lambda h h); congr (_ + _).
apply: eq_bigr => i _; apply: eq_bigr => r _; congr (_ ^+ 2); rewrite /resid; congr (_ * (_ - _)).
have [s1 s2 _ _] := sgE (ltn_ord i).
by apply: eq_fsum => j jk; rewrite h //; move: s1 s2 jk; clear; lia.
Qed.

Variable solve : nat -> mat F -> vec F -> vec F.
Hypothesis es : exact_solver solve.
Variables (t0 tl : T) (i0 il fixN : nat) (offsets : bool) (lambda : F).
Hypothesis sg0 : is_segment k kps t0 i0.
Hypothesis sgl : is_segment k kps tl il.
Hypothesis i0l : (i0 <= il)%N.
Hypothesis l0 : 0 <= lambda.
Hypothesis lfix : lambda = 0 \/ fixN = 0%N.
Hypothesis loff : offsets -> lambda = 0.
Notation f := (i0.+1 - k + fixN)%N.
Hypothesis fil : (f <= il)%N.
Notation N := (il.+1 - f)%N.
Notation base := (base_field k kps i0 il fixN offsets).

Lemma motion_allE dense (A : mat F) (b : vec F) :
  exists A' b', [/\ ft_motion dbl one dense cs D lambda fixN t0 tl N A b = Ok (A', b'),
    forall h x, bil (N * D) (N * D) h A' x = bil (N * D) (N * D) h A x
      + total lambda (ext D f N h) (ext D f N x)
    & forall h, fsum (N * D) (fun R => h R * b' R) = fsum (N * D) (fun R => h R * b R)
      - total lambda (ext D f N h) base].
Proof.
have [lz|lz] := eqVneq lambda 0.
  have z X Y : total lambda X Y = 0.
    by apply: fsum0 => j _; rewrite /qf /qform fsum0 // => r _; rewrite lz mul0r.
  exists A, b; split=> [|h x|h]; first by rewrite /ft_motion lz eqxx.
    by rewrite z addr0.
  by rewrite z subr0.
have fz : fixN = 0%N by case: lfix lz => // ->; rewrite eqxx.
have oz : offsets = false by case: offsets loff lz => // ->; rewrite ?eqxx.
rewrite /base_field oz fz addn0; exact: motionE.
Qed.

Lemma system_optimal dense (A : mat F) (b : vec F) :
  (forall i r (cc : vec F), (i < size pts)%N -> (r < D)%N ->
    mulv (N * D) A cc (i * D + r)%N - b (i * D + r)%N
    = resid (fun v r => base v r + ext D f N cc v r) i r) ->
  let q := (size pts * D)%N in
  exists2 Ab, ft_motion dbl one dense cs D lambda fixN t0 tl N (mulm q (trm A) A)
                (mulv q (trm A) b) = Ok Ab &
  let c := solve (N * D) Ab.1 Ab.2 in
  forall e, cost_val lambda (fun v r => base v r + ext D f N c v r)
         <= cost_val lambda (fun v r => base v r + ext D f N e v r).
Proof.
move=> HA q; set A1 := mulm q (trm A) A; set b1 := mulv q (trm A) b.
have [A' [b' [-> HB Hb]]] := motion_allE dense A1 b1.
exists (A', b') => // c; rewrite [(A', b').1]/= [(A', b').2]/= in c *.
pose Q : mat F := fun R C => A' R C - A1 R C.
pose g : vec F := fun R => b1 R - b' R.
have QE h x : bil (N * D) (N * D) h Q x = total lambda (ext D f N h) (ext D f N x).
  have -> : bil (N * D) (N * D) h Q x = bil (N * D) (N * D) h A' x - bil (N * D) (N * D) h A1 x.
    rewrite /bil -fsumB; apply: eq_fsum => R _; rewrite -fsumB; apply: eq_fsum => C _.
    by rewrite /Q; ring.
  by rewrite HB addrC addKr.
have gE h : fsum (N * D) (fun R => h R * g R) = total lambda (ext D f N h) base.
  have -> : fsum (N * D) (fun R => h R * g R)
    = fsum (N * D) (fun R => h R * b1 R) - fsum (N * D) (fun R => h R * b' R).
    by rewrite -fsumB; apply: eq_fsum => R _; rewrite /g; ring.
  by rewrite Hb opprB addrC subrK.
have Qs x y : (x < N * D)%N -> (y < N * D)%N -> Q x y = Q y x.
  by move=> xn yn; rewrite -(bil_unit Q xn yn) -(bil_unit Q yn xn) !QE total_sym.
have Qp v : 0 <= bil (N * D) (N * D) v Q v by rewrite QE; apply: total_psd.
have QA x i : (i < N * D)%N -> mulv (N * D) (fun r q => A1 r q + Q r q) x i = mulv (N * D) A' x i.
  by move=> _; apply: eq_fsum => j _; rewrite /Q; congr (_ * _); ring.
have ge i : (i < N * D)%N -> b1 i - g i = b' i by move=> _; rewrite /g; ring.
have [x Hx] : exists x : vec F, forall i, (i < N * D)%N -> mulv (N * D) A' x i = b' i.
  have [||v|x Hx] := @quad_solvable F q (N * D) A b Q g; [exact: Qs|exact: Qp| |].
    by rewrite QE gE; apply: total_null.
  by exists x => i iN; rewrite -QA // Hx // ge.
have Hc i : (i < N * D)%N -> mulv (N * D) A' c i = b' i by apply: es; exists x.
have costE e : cost_val lambda (fun v r => base v r + ext D f N e v r)
  = qcost q (N * D) A b Q e + 2%:R * fsum (N * D) (fun i => e i * g i) + total lambda base base.
  rewrite /cost_val total_add /qcost QE gE.
  have -> : fsum q (fun i => (mulv (N * D) A e i - b i) ^+ 2)
    = \sum_(i < size pts) \sum_(r < D) resid (fun v r => base v r + ext D f N e v r) i r ^+ 2.
    rewrite /q fsum_nested fsumE; apply: eq_bigr => i _; rewrite fsumE; apply: eq_bigr => r _.
    by rewrite HA.
  ring.
move=> e; rewrite !costE ler_add2r; apply: quad_min => // i iN.
by rewrite QA // ge // Hc.
Qed.

(* writing the solution *)
Lemma write_solution (c : vec F) :
  exists kps', [/\
    (if offsets then
       dm_manipulateControlVertices cs
         (fun i v => Ok (mf_project (euclidean F D) (fun r => v r + c (i * D + r)%N))) N t0 fixN%:Z
     else dm_setControlVerticesAt (euclidean F D) cs (DMat (N * D) 1 (fun r _ => c r)) t0 fixN%:Z)
    = MRet (canon dbl k kps') tt,
    map fst kps' = map fst kps,
    competitor D kps kps' f il.+1
    & forall v r, (v < n)%N -> (r < D)%N -> (nth kp0 kps' v).2 r = base v r + ext D f N c v r].
Proof.
have [a1 a2 _ _] := sg0; have [b1 b2 _ _] := sgl.
have sp : start_pos k kps i0 fixN%:Z = Ok f.
  rewrite /start_pos lez_nat leq0n absz_nat; congr Ok; apply/minn_idPl.
  by move: fil b2; clear; lia.
have Nn : (N <= n - k)%N by move: b2; clear; lia.
have wE (g : nat -> vec F -> vec F) v r : (v < n)%N ->
  (nth kp0 (with_points kps f N g) v).2 r = if (f <= v < f + N)%N then g (v - f)%N (nth kp0 kps v).2 r else pt v r.
  by move=> vn; rewrite nth_with //=; case: ifP.
have rng v : (f <= v < f + N)%N = (f <= v < il.+1)%N by move: fil; clear; lia.
pose g : nat -> vec F -> vec F := if offsets then (fun i v r => v r + c (i * D + r)%N)
  else (fun j _ => layout_point D (DMat (N * D) 1 (fun r _ => c r)) j).
exists (with_points kps f N g); split.
- rewrite /g; case: offsets.
    rewrite (manipulateE dbl gd _ _ _ sg0) Nn sp mreadOk (msteps dbl gd (g := fun i v r => v r + c (i * D + r)%N)) //.
  have lay : layout_ok D (DMat (N * D) 1 (fun r _ => c r)).
    by rewrite /layout_ok /= muln1 dvdn_mull // !orbT.
  have cnt : layout_count D (DMat (N * D) 1 (fun r _ => c r)) = N.
    by rewrite /layout_count /= muln1 mulnK.
  rewrite (@setCVE _ _ dbl _ _ gd (euclidean F D) _ _ _ _ f sg0) //.
  by rewrite [mf_size _]/= cnt Nn.
- exact: keys_with.
- split=> [|v r vn nf rD]; first exact: keys_with.
  by rewrite wE // rng (negbTE nf).
move=> v r vn rD; rewrite wE // /ext /base_field /g /fixedf.
case: offsets; first by case: ifP; rewrite ?addr0.
case: ifP => [/andP[h1 h2]|_]; last by rewrite addr0.
rewrite add0r /layout_point /=; case: eqP => [e|_].
  have -> : (v - f = 0)%N; last by rewrite mul0n.
  have : (N = 1)%N by apply/eqP; rewrite -(eqn_pmul2r D0) mul1n e.
  by move: h1 h2; clear; lia.
case: eqP => [e|_].
  by rewrite -e muln1; have -> : r = 0%N; [move: rD; rewrite -e; clear; lia|rewrite addn0].
case: eqP => [e|//].
have -> : (N * D = 1 -> (v - f) * D + r = 0)%N => //.
move=> /eqP; rewrite muln_eq1 => /andP[/eqP n1 /eqP d1].
have -> : (v - f = 0)%N by move: n1 h1 h2; clear; lia.
by move: rD; rewrite d1; clear; lia.
Qed.

Lemma optimal_best dense (A : mat F) (b : vec F) :
  (forall i r (cc : vec F), (i < size pts)%N -> (r < D)%N ->
    mulv (N * D) A cc (i * D + r)%N - b (i * D + r)%N
    = resid (fun v r => base v r + ext D f N cc v r) i r) ->
  let q := (size pts * D)%N in
  exists2 Ab, ft_motion dbl one dense cs D lambda fixN t0 tl N (mulm q (trm A) A)
                (mulv q (trm A) b) = Ok Ab &
  let c := solve (N * D) Ab.1 Ab.2 in
  exists2 kps',
    (if offsets then
       dm_manipulateControlVertices cs
         (fun i v => Ok (mf_project (euclidean F D) (fun r => v r + c (i * D + r)%N))) N t0 fixN%:Z
     else dm_setControlVerticesAt (euclidean F D) cs (DMat (N * D) 1 (fun r _ => c r)) t0 fixN%:Z)
    = MRet (canon dbl k kps') tt &
    best_fit dbl one k D kps kps' f il.+1 times pts w lambda.
Proof.
move=> HA q; have [Ab -> opt] := system_optimal dense HA; exists Ab => // c.
have [kps' [-> key cmp ptE]] := write_solution c; exists kps' => //; split=> //.
exists (cost_val lambda (fun v r => (nth kp0 kps' v).2 r)); first exact: cost_ex.
move=> kps2 E2 [key2 cmp2] /(cost_valE key2) ->.
rewrite (eq_cost_val lambda ptE).
pose e : vec F := fun R => (nth kp0 kps2 (f + R %/ D)).2 (R %% D)%N - base (f + R %/ D)%N (R %% D)%N.
rewrite (@eq_cost_val lambda (fun v r => (nth kp0 kps2 v).2 r) (fun v r => base v r + ext D f N e v r)) //.
move=> v r vn rD; rewrite /ext; case: ifP => h.
  rewrite /e grid_div ?grid_mod //.
  have -> : (f + (v - f) = v)%N by move: h; clear; lia.
  by rewrite addrC subrK.
rewrite addr0 cmp2 //; last by move: h fil; clear; lia.
by rewrite /base_field /fixedf; case: offsets => //; rewrite h.
Qed.
End Main.
