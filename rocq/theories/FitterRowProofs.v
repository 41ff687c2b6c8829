(* The rows of the least-squares system assembled by the fitter. *)
From mathcomp Require Import all_ssreflect all_algebra.
From mathcomp.algebra_tactics Require Import ring.
From mathcomp.zify Require Import zify.
From Verif Require Import Prelude CoxDeBoor CoxDeBoorProofs BSplineModel BSplineSpec
  BSplineProofs BSplineEvalProofs BSplineIntegralProofs BSplineQuadProofs LinSolve
  DMModel DMSpec DMProofs DMEvalProofs KnotModel FitterModel FitterSpec FitterAlg
  FitterQuadProofs FitterSysProofs.
Set Implicit Arguments.
Unset Strict Implicit.
Unset Printing Implicit Defensive.
Import GRing.Theory Num.Theory Order.Theory.
Local Open Scope ring_scope.
#[local] Arguments fsum : simpl never.

Section Rows.
Variables (F : realFieldType) (T : realDomainType).
Variables (dbl : T -> F) (one : T).
Hypothesis et : exact_time dbl one.
Variables (k D : nat) (kps : seq (T * vec F)).
Hypothesis gd : good k kps.
Hypothesis D0 : (0 < D)%N.
Notation n := (size kps).
Notation cs := (canon dbl k kps).
Notation kk := (kp_knot kps).
Let k0 : (0 < k)%N. Proof. by case/and3P: gd. Qed.
Let sz : (2 * k <= n)%N. Proof. by case/and3P: gd. Qed.
Notation pt := (fun v r => (nth kp0 kps v).2 r).
Notation sw := (seg_weight dbl one k kps).

(* the number of a time, corrected for the end of the valid interval *)
Lemma resolve_seg (t0 tl : T) (rs : resolver T) : numbers_knots kps t0 tl rs ->
  exists z0 : int, forall t s, t0 <= t -> t <= tl -> is_segment k kps t s ->
    exists2 ki, rs t = Ok ki & ki - (if t == kk (n - k) then 1 else 0) = z0 + s%:Z.
Proof.
move=> [z0 H]; exists z0 => t s h0 hl sg; have [a1 a2 a3 a4] := sg.
case: eqP => [e|ne].
  exists (z0 + (n - k)%N%:Z).
    apply: H => //; [by move: k0 sz; clear; lia|by rewrite e|].
    by move=> h; rewrite e; apply: (kk_lt gd); rewrite ?leqnn.
  have -> : (n - k)%N = s.+1.
    case: a4 => [lt|[h _]]; last by move: h; clear; lia.
    exfalso; move: lt; rewrite e => lt; have : (n - k < s.+1)%N.
      by rewrite ltnNge; apply/negP => h; have := kk_le gd h; rewrite leNgt lt => /(_ _)/negP; case;
         move: k0 sz; clear; lia.
    by move: a2; clear; lia.
  by move: (s) => s'; clear; lia.
exists (z0 + s%:Z); last by rewrite subr0.
apply: H => //; first by move: a2; clear; lia.
move=> _; case: a4 => // [[h e]]; case: ne; rewrite e; congr kp_knot; move: h; clear; lia.
Qed.

Variables (t0 tl : T) (i0 il : nat).
Hypothesis sg0 : is_segment k kps t0 i0.
Hypothesis sgl : is_segment k kps tl il.
Variable fixN : nat.
Notation f := (i0.+1 - k + fixN)%N.
Hypothesis fil : (f <= il)%N.
Notation N := (il.+1 - f)%N.

Lemma captureE c : (i0.+1 - k + c <= n)%N ->
  exists2 cur, ft_capture cs t0 c = Ok cur &
    size cur = c /\ forall v, (v < c)%N -> nth zerov cur v = (nth kp0 kps (i0.+1 - k + v)).2.
Proof.
move=> h; have [a1 a2 _ _] := sg0; rewrite /ft_capture; case: eqP => [->|c0]; first by exists [::].
rewrite (segIterE dbl gd sg0) /= (firstRelevantE dbl gd) /= ?size_mkseq; [|by move: a1 a2; clear; lia..].
rewrite h /=; eexists; first reflexivity.
split=> [|v vc]; first by rewrite size_mkseq.
by rewrite nth_mkseq // canon_pt //; move: h vc; clear; lia.
Qed.

Variables (rs : resolver T) (z0 : int).
Hypothesis rsE : forall t s, t0 <= t -> t <= tl -> is_segment k kps t s ->
    exists2 ki, rs t = Ok ki & ki - (if t == kk (n - k) then 1 else 0) = z0 + s%:Z.
Variables (nc : bool) (np : nat).
Hypothesis npk : (np <= k.+1)%N.
Variables (times : seq T) (pts : seq (vec F)) (wf : option (nat -> outcome F)) (w : nat -> F).
Hypothesis wfE : weights_are (size pts) wf w.
Hypothesis stp : size times = size pts.
Variables (offsets : bool) (sg : nat -> nat).
Hypothesis tin : forall i, (i < size pts)%N -> t0 <= nth 0 times i /\ nth 0 times i <= tl.
Hypothesis sgE : forall i, (i < size pts)%N -> is_segment k kps (nth 0 times i) (sg i).
Hypothesis sgr : forall i, (i < size pts)%N -> (i0 <= sg i <= il)%N.
Variable cur : seq (vec F).
Hypothesis szc : size cur = (if offsets then fixN + N else fixN)%N.
Hypothesis curE : forall v, (v < size cur)%N -> nth zerov cur v = (nth kp0 kps (i0.+1 - k + v)).2.

Definition wt (i j : nat) : F := sw (nth 0 times i) (sg i) 0 j * w i.

Lemma rowE i (A : mat F) (b : vec F) : (i < size pts)%N ->
  (forall r C, (r < D)%N -> A (i * D + r)%N C = 0) ->
  (forall r, (r < D)%N -> b (i * D + r)%N = 0) ->
  let a := ((sg i).+1 - k)%N in
  exists2 Ab, ft_row dbl one nc np cs D rs times pts wf fixN offsets (kk (n - k))
      (z0 + i0%:Z - (k%:Z - 1) + fixN%:Z) N cur i (A, b) = Ok Ab &
  [/\ forall u r C, (r < D)%N -> u != i -> Ab.1 (u * D + r)%N C = A (u * D + r)%N C,
      forall u r, (r < D)%N -> u != i -> Ab.2 (u * D + r)%N = b (u * D + r)%N,
      forall r c q, (r < D)%N -> (q < D)%N ->
        Ab.1 (i * D + r)%N (c * D + q)%N =
        if (a <= f + c < a + k)%N && (r == q) then wt i (f + c - a) else 0
    & forall r, (r < D)%N -> Ab.2 (i * D + r)%N =
        w i * nth zerov pts i r
        - fsum k (fun j => if (a + j < f)%N || offsets then pt (a + j)%N r * wt i j else 0)].
Proof.
move=> ip A0 b0 a; have [ti1 ti2] := tin ip; have sgi := sgE ip; have /andP[r1 r2] := sgr ip.
have [ki kiE kiV] := rsE ti1 ti2 sgi; have [s1 s2 s3 s4] := sgi.
have [c1 _ _ _] := sg0; have [_ c2 _ _] := sgl.
rewrite /ft_row [ds_order _]/= stp ip.
have -> : (if wf is Some g then g i else Ok 1) = Ok (w i).
  by have := wfE ip; case: (wf) => [g|] ->.
have okb A1 B1 (x : A1) (g : A1 -> outcome B1) : obind (Ok x) g = g x by [].
rewrite kiE (evaluatorE dbl gd sgi) !okb.
have [bi0 -> biE] := getLocalBiE et gd 0 nc sgi npk.
rewrite !okb.
set bi : vec F := if w i != 1 then _ else _.
have biW j : (j < k)%N -> bi j = wt i j.
  by move=> jk; rewrite /bi /wt; case: eqP => [->|_] /=; rewrite ?mulr1 biE.
set kn := ki - _ - _ - _.
have knE : kn = a%:Z - f%:Z.
  by rewrite /kn /a; move: kiV s1 c1; clear; move: (if _ then _ else _) => e; lia.
have afN j : (j < k)%N -> (a + j < f + N)%N.
  by rewrite /a; move: s1 r2 fil; clear; lia.
pose I j (st : mat F * vec F) :=
  [/\ forall u r C, (r < D)%N -> u != i -> st.1 (u * D + r)%N C = A (u * D + r)%N C,
      forall u r, (r < D)%N -> u != i -> st.2 (u * D + r)%N = b (u * D + r)%N,
      forall r c q, (r < D)%N -> (q < D)%N ->
        st.1 (i * D + r)%N (c * D + q)%N =
        if (a <= f + c < a + j)%N && (r == q) then wt i (f + c - a) else 0
    & forall r, (r < D)%N -> st.2 (i * D + r)%N =
        - fsum j (fun j => if (a + j < f)%N || offsets then pt (a + j)%N r * wt i j else 0)].
set body := (X in oloop 0 k X _).
have [|j [A1 b1] /andP[_ jk] [I1 I2 I3 I4]|[A1 b1] -> [I1 I2 I3 I4]] :=
  @oloop_ind _ 0 k body (A, b) I (leq0n _).
- split=> //= [r c q rD qD|r rD]; last by rewrite b0 // oppr0.
  by rewrite A0 // addn0 ltnNge andbN.
- rewrite /body /I knE biW // [(A1, b1).1]/= [(A1, b1).2]/= in I1 I2 I3 I4 *.
  have c0 : (0 <= a%:Z - f%:Z + j%:Z) = (f <= a + j)%N by clear; lia.
  have c1' : (a%:Z - f%:Z + j%:Z < 0) = (a + j < f)%N by clear; lia.
  rewrite c0 c1'.
  pose A2 : mat F := if (f <= a + j)%N && (wt i j != 0) then
     (fun r c => if [&& i * D <= r, r < i * D + D & c == (a + j - f) * D + (r - i * D)]%N
       then wt i j else A1 r c) else A1.
  have EA : (if (f <= a + j)%N && (wt i j != 0)
     then need (absz (a%:Z - f%:Z + j%:Z)%R < N)%N;
       Ok ((fun r c => if [&& i * D <= r, r < i * D + D & c == absz (a%:Z - f%:Z + j%:Z)%R * D + (r - i * D)]%N
             then wt i j else A1 r c) : mat F)
     else Ok A1) = Ok A2.
    rewrite /A2; case: ifP => // /andP[h _].
    have -> : absz (a%:Z - f%:Z + j%:Z)%R = (a + j - f)%N by move: h; clear; lia.
    by have -> : (a + j - f < N)%N by have := afN _ jk; move: h; clear; lia.
  rewrite EA okb.
  pose b2 : vec F := if (a + j < f)%N || offsets then
     (fun r => if ((i * D <= r) && (r < i * D + D))%N
        then b1 r - pt (a + j)%N (r - i * D)%N * wt i j else b1 r) else b1.
  have Eb : (if (a + j < f)%N || offsets then
      let v := fixN%:Z + (a%:Z - f%:Z + j%:Z) in
      need (0 <= v) && (`|v| < size cur)%N;
      Ok ((fun r => if ((i * D <= r) && (r < i * D + D))%N
        then b1 r - nth zerov cur `|v|%N (r - i * D)%N * wt i j else b1 r) : vec F)
     else Ok b1) = Ok b2.
    rewrite /b2; case: ifP => // h /=.
    have -> : 0 <= fixN%:Z + (a%:Z - f%:Z + j%:Z) by rewrite /a; move: s1 r1 c1; clear; lia.
    have vE : absz (fixN%:Z + (a%:Z - f%:Z + j%:Z))%R = (a + j - (i0.+1 - k))%N.
      by rewrite /a; move: s1 r1 c1; clear; lia.
    rewrite vE; have lt : (a + j - (i0.+1 - k) < size cur)%N.
      by rewrite szc; move: h (afN _ jk); rewrite /a; move: s1 r1 c1; clear; case: offsets; lia.
    rewrite lt /= curE //.
    by have -> : (i0.+1 - k + (a + j - (i0.+1 - k)) = a + j)%N by rewrite /a; move: s1 r1 c1; clear; lia.
  rewrite Eb okb; exists (A2, b2) => //; split=> /=.
  + move=> u r C rD ui; rewrite /A2; case: ifP => _; last exact: I1.
    by rewrite andbA grid_bounds // (negbTE ui) /= I1.
  + move=> u r rD ui; rewrite /b2; case: ifP => _; last exact: I2.
    by rewrite grid_bounds // (negbTE ui) /= I2.
  + move=> r c q rD qD; rewrite /A2 addnS ltnS.
    have cE : (f <= a + j)%N -> (c * D + q == (a + j - f) * D + r)%N = (f + c == a + j)%N && (r == q).
      move=> h; apply/eqP/andP => [e|[/eqP e1 /eqP ->]].
        have e1 := congr1 (fun z => z %/ D)%N e; have e2 := congr1 (fun z => z %% D)%N e.
        rewrite !grid_div // !grid_mod // in e1 e2.
        by rewrite e2 eqxx; split=> //; apply/eqP; move: e1 h; clear; lia.
      by have -> : (a + j - f = c)%N by move: e1; clear; lia.
    have split3 : (a <= f + c <= a + j)%N && (r == q)
      = ((a <= f + c < a + j)%N && (r == q)) || ((f + c == a + j)%N && (r == q)).
      by case: (r == q); rewrite ?andbF // !andbT; clear; lia.
    rewrite split3; case: ifP => [/andP[h wn]|h].
      rewrite andbA grid_bounds // eqxx /= addKn cE // I3 //.
      case: ((f + c == a + j)%N && _) / andP => [[/eqP e _]|_]; last by rewrite orbF.
      by rewrite orbT e addKn.
    rewrite I3 //; case: ((f + c == a + j)%N && (r == q)) / andP => [[/eqP e rq]|_]; last by rewrite orbF.
    rewrite orbT; case: ifP => // _; have -> : (f + c - a = j)%N by move: e; clear; lia.
    by apply/esym/eqP; move: h; rewrite -e leq_addr /= => /negbFE.
  + move=> r rD; rewrite /b2 fsumS; case: ifP => h; last by rewrite addr0 I4.
    by rewrite grid_bounds // eqxx addKn I4 // opprD.
rewrite okb knE; have -> : (0 <= a%:Z - f%:Z) = (f <= a)%N by clear; lia.
eexists; first reflexivity.
rewrite [(_, _).1]/= [(_, _).2]/= in I1 I2 I3 I4 *; split=> [//||//|r rD].
- move=> u r rD ui; case: ifP => _; rewrite ?/set_segment /= grid_bounds // (negbTE ui) I2 //.
case: ifP => [/andP[h /negbTE no]|_].
  rewrite /set_segment [_.2 _]/= grid_bounds // eqxx addKn mulrC fsum0 ?subr0 // => j _.
  by rewrite no orbF ltnNge (leq_trans h (leq_addr _ _)).
by rewrite [_.2 _]/= grid_bounds // eqxx addKn I4 // mulrC addrC.
Qed.

Definition base_field : nat -> nat -> F :=
  if offsets then (fun v r => pt v r) else fixedf kps f N.

Lemma rowsE : exists2 Ab,
  oloop 0 (size pts) (ft_row dbl one nc np cs D rs times pts wf fixN offsets (kk (n - k))
      (z0 + i0%:Z - (k%:Z - 1) + fixN%:Z) N cur) (zerom, zerov) = Ok Ab &
  forall i r (cc : vec F), (i < size pts)%N -> (r < D)%N ->
    mulv (N * D) Ab.1 cc (i * D + r)%N - Ab.2 (i * D + r)%N =
    w i * (fsum k (fun j => let v := ((sg i).+1 - k + j)%N in
             sw (nth 0 times i) (sg i) 0 j * (base_field v r + ext D f N cc v r))
           - nth zerov pts i r).
Proof.
pose I m (st : mat F * vec F) :=
  [/\ forall u r C, (r < D)%N -> (m <= u)%N -> st.1 (u * D + r)%N C = 0,
      forall u r, (r < D)%N -> (m <= u)%N -> st.2 (u * D + r)%N = 0,
      forall i r c q, (i < m)%N -> (r < D)%N -> (q < D)%N -> let a := ((sg i).+1 - k)%N in
        st.1 (i * D + r)%N (c * D + q)%N =
        if (a <= f + c < a + k)%N && (r == q) then wt i (f + c - a) else 0
    & forall i r, (i < m)%N -> (r < D)%N -> let a := ((sg i).+1 - k)%N in
        st.2 (i * D + r)%N = w i * nth zerov pts i r
        - fsum k (fun j => if (a + j < f)%N || offsets then pt (a + j)%N r * wt i j else 0)].
set body := ft_row _ _ _ _ _ _ _ _ _ _ _ _ _ _ _ _.
have [|i [A b] /andP[_ ip] [I1 I2 I3 I4]|[A b] -> [_ _ I3 I4]] :=
  @oloop_ind _ 0 (size pts) body (zerom, zerov) I (leq0n _).
- by split.
- have [r C rD|r rD|[A' b'] e [J1 J2 J3 J4]] := @rowE i A b ip.
  + by rewrite [LHS](I1 i).
  + by rewrite [LHS](I2 i).
  exists (A', b'); first exact: e.
  split=> [u r C rD iu|u r rD iu|u r c q ui rD qD|u r ui rD].
  + by rewrite J1 // ?(gtn_eqF iu) //; apply: I1 => //; apply: ltnW.
  + by rewrite J2 // ?(gtn_eqF iu) //; apply: I2 => //; apply: ltnW.
  + move: ui; rewrite ltnS leq_eqVlt => /orP[/eqP->|ui]; first exact: J3.
    by rewrite J1 // ?(ltn_eqF ui) //; exact: I3.
  move: ui; rewrite ltnS leq_eqVlt => /orP[/eqP->|ui]; first exact: J4.
  by rewrite J2 // ?(ltn_eqF ui) //; exact: I4.
exists (A, b) => // i r cc ip rD; rewrite [_.1]/= [_.2]/= in I3 I4 *.
have [s1 s2 _ _] := sgE ip; have /andP[r1 r2] := sgr ip; have [c1 _ _ _] := sg0.
have [_ c2 _ _] := sgl.
set a := ((sg i).+1 - k)%N.
have ak : (a + k <= n)%N by rewrite /a; move: s1 s2; clear; lia.
have fN : (f + N <= n)%N by move: fil c2; clear; lia.
have -> : mulv (N * D) A cc (i * D + r)%N
  = fsum k (fun j => ext D f N cc (a + j)%N r * wt i j).
  pose psi q : F := if r == (q %% D)%N then wt i (q %/ D) else 0.
  rewrite /mulv; transitivity (fsum (N * D) (fun R => cc R * (if (a <= f + R %/ D < a + k)%N
     then psi ((f + R %/ D - a) * D + R %% D)%N else 0))).
    apply: eq_fsum => R RN; rewrite mulrC; congr (_ * _).
    rewrite {1}(divn_eq R D) I3 ?ltn_pmod // -/a /psi grid_div ?grid_mod ?ltn_pmod //.
    by case: (_ <= _ < _)%N.
  rewrite (@win_sum _ D k n f N D0 fN a cc psi ak) fsum_nested; apply: eq_fsum => j jk.
  rewrite (fsum_pick (j := r)) //.
    by rewrite /loc /psi grid_div ?grid_mod ?eqxx.
  by move=> q qD ne; rewrite /psi grid_mod // eq_sym (negbTE ne) mulr0.
rewrite I4 // -/a opprB addrA -fsumD mulrBr; congr (_ - _).
rewrite fsum_mull; apply: eq_fsum => j jk.
rewrite /wt -/a /base_field /fixedf.
have e : (f <= a + j < f + N)%N = ~~ (a + j < f)%N.
  by rewrite -leqNgt /a; move: jk s1 r2 fil; clear; lia.
case: offsets; rewrite ?orbT ?orbF; first by ring.
by rewrite e; case: (a + j < f)%N => /=; ring.
Qed.
End Rows.
