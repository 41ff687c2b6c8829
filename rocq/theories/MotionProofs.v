(* Proofs about the motion error term. *)
From mathcomp Require Import all_ssreflect all_algebra.
From mathcomp.algebra_tactics Require Import ring.
From mathcomp.zify Require Import zify.
From Verif Require Import Prelude CoxDeBoor BSplineModel BSplineSpec BSplineProofs
  BSplineEvalProofs BSplineAccessProofs BSplineCoefProofs BSplineQuadProofs PoseModel DVModel DVSpec MotionSpec.
Set Implicit Arguments.
Unset Strict Implicit.
Unset Printing Implicit Defensive.
Import GRing.Theory Num.Theory Order.Theory.
Local Open Scope ring_scope.

Section Blocks.
Variables (F : realFieldType) (wtol : F) (s : bspline F).
Hypothesis wfs : wf s.
Local Notation k := (bs_order s).
Local Notation D := (bs_dim s).
Local Notation C := (bs_ncoef s).
Local Notation n := (size (bs_knots s)).

Lemma pair_eq D' i j r q : (r < D')%N -> (q < D')%N ->
  (i * D' + r == j * D' + q)%N = (i == j) && (r == q).
Proof.
move=> rD qD; apply/eqP/andP => [e|[/eqP -> /eqP ->]] //.
have D0 : (0 < D')%N by move: rD; clear; lia.
have : ((i * D' + r) %/ D' = (j * D' + q) %/ D')%N by rewrite e.
rewrite !divnMDl // !divn_small // !addn0 => ij; move: e; rewrite ij => /addnI ->.
by rewrite !eqxx.
Qed.

(* the iterated derivative of the monomials of basis function i on segment g *)
Definition bmono (d i g p : nat) : F :=
  let w := kn s (k + g)%N - kn s (k + g - 1)%N in
  let Dm : mat F := fun r c => if (c == r.+1) && (r.+1 < k)%N then r.+1%:R * w^-1 else 0 in
  iter d (mulv k Dm) (fun p => fsum k (fun m => basis_at s g p m * (g + m == i)%N%:R)) p.

Lemma iter0 (A : mat F) d (v : nat -> F) p : (forall q, v q = 0) -> iter d (mulv k A) v p = 0.
Proof.
move=> v0; elim: d p => [|d IH] p //=.
by rewrite /mulv fsum0 // => x _; rewrite IH mulr0.
Qed.
Lemma iter_ext (A : mat F) d (v v' : nat -> F) p : (forall q, v q = v' q) ->
  iter d (mulv k A) v p = iter d (mulv k A) v' p.
Proof.
move=> e; elim: d p => [|d IH] p //=.
by apply: eq_fsum => x _; rewrite IH.
Qed.
Lemma eq_bil (a a' b b' : nat -> F) (V : mat F) m : (forall p, a p = a' p) -> (forall p, b p = b' p) ->
  bil m m a V b = bil m m a' V b'.
Proof. by move=> ea eb; apply: eq_fsum => x _; apply: eq_fsum => y _; rewrite ea eb. Qed.

Lemma vmono_unit i r r' g p : (r < D)%N -> (r' < D)%N ->
  vmono s (fun x => (g * D + x == i * D + r)%N%:R) r' g p =
  (r' == r)%:R * fsum k (fun m => basis_at s g p m * (g + m == i)%N%:R).
Proof.
move=> rD r'D; rewrite /vmono fsum_mull; apply: eq_fsum => m _.
rewrite addnA -mulnDl pair_eq // mulrCA; congr (_ * _).
by case: (r' == r); case: (_ == i); rewrite /= ?mul1r ?mul0r ?mulr0.
Qed.

Lemma seg_form_unit (W : nat -> nat -> F) i j r q g d : (r < D)%N -> (q < D)%N ->
  seg_form s W (fun x => (x == i * D + r)%N%:R) (fun x => (x == j * D + q)%N%:R) g d =
  W r q * bil k k (bmono d i g)
    (fun a b => (a + b).+1%:R^-1 * (kn s (k + g)%N - kn s (k + g - 1)%N)) (bmono d j g).
Proof.
move=> rD qD; rewrite /seg_form; set Dm := (X in mulv k X).
rewrite (fsum_pick (j := r)) // ?(fsum_pick (j := q)) //.
- congr (_ * _); apply: eq_bil => p; apply: iter_ext => x;
    rewrite vmono_unit // eqxx mul1r //.
- move=> q' q'D /negbTE ne; rewrite [bil _ _ _ _ _](_ : _ = 0) ?mulr0 //.
  rewrite /bil fsum0 // => x _; rewrite fsum0 // => y _; rewrite [X in _ * X]iter0 ?mulr0 //.
  by move=> z; rewrite vmono_unit // ne mul0r.
move=> r' r'D /negbTE ne; rewrite fsum0 // => q' q'D.
rewrite [bil _ _ _ _ _](_ : _ = 0) ?mulr0 //.
rewrite /bil fsum0 // => x _; rewrite fsum0 // => y _; rewrite [X in X * _ * _]iter0 ?mul0r //.
by move=> z; rewrite vmono_unit // ne mul0r.
Qed.

Definition gram d i j : F := fsum (numValidTimeSegments k n) (fun g =>
  bil k k (bmono d i g)
    (fun a b => (a + b).+1%:R^-1 * (kn s (k + g)%N - kn s (k + g - 1)%N)) (bmono d j g)).

Lemma gram_sym d i j : gram d i j = gram d j i.
Proof. by apply: eq_fsum => g _; apply: bil_sym => x y; rewrite addnC. Qed.

(* the D x D block (i, j) of Q is a number times W *)
Lemma quad_blocks (W : dmat F) d Q : dm_rows W = D -> dm_cols W = D ->
  (forall r c, (r < D)%N -> (c < D)%N -> `|W r c - W c r| <= wtol) ->
  curveQuadraticIntegral wtol s W d = Ok Q ->
  forall i j r q, (i < C)%N -> (j < C)%N -> (r < D)%N -> (q < D)%N ->
    Q (i * D + r)%N (j * D + q)%N = W r q * gram d i j.
Proof.
move=> Wr Wc Wt E i j r q iC jC rD qD; have [Q' E' HQ] := curveQuadE wfs d Wr Wc Wt.
move: E'; rewrite E => -[eQ].
have bnd m x : (m < C)%N -> (x < D)%N -> (m * D + x < C * D)%N.
  move=> mC xD; apply: (@leq_trans (m.+1 * D)); last by rewrite leq_mul2r mC orbT.
  by rewrite mulSnr ltn_add2l.
rewrite eQ -(bil_unit Q' (bnd _ _ iC rD) (bnd _ _ jC qD)) HQ /gram fsum_mull.
by apply: eq_fsum => g _; rewrite seg_form_unit.
Qed.
End Blocks.

(* the matrix of a freshly built term *)
Section Term.
Variables (F : realFieldType) (wtol : F) (s : bspline F) (W : dmat F) (eo : nat).
Hypotheses (wfs : wf s) (t0 : 0 <= wtol).
Local Notation k := (bs_order s).
Local Notation D := (bs_dim s).
Local Notation C := (bs_ncoef s).
Local Notation N := (bs_dim s * bs_ncoef s)%N.
Hypotheses (Wr : dm_rows W = D) (Wc : dm_cols W = D).
Hypothesis sW : forall r c, (r < D)%N -> (c < D)%N -> W r c = W c r.

Definition eff_order := if (k <= eo)%N && (2 <= k)%N then k.-1 else eo.

Lemma me_newE : exists me, [/\ me_new wtol s W eo = Ok me, me_rows me = N,
   (forall x y, (x < N)%N -> (y < N)%N -> me_Q me x y = me_Q me y x),
   (forall i j r q, (i < C)%N -> (j < C)%N -> (r < D)%N -> (q < D)%N ->
      me_Q me (i * D + r)%N (j * D + q)%N = me_Q me (j * D + r)%N (i * D + q)%N)
   & ((forall v : nat -> F, 0 <= bil D D v W v) -> forall c, 0 <= bil N N c (me_Q me) c) /\
     (forall c e s1 s2 G, setCoefficientVector s (DVec (D * C) c) = Ok s1 ->
        setCoefficientVector s (DVec (D * C) e) = Ok s2 ->
        antiderivative_of s (fun i => fsum D (fun r => fsum D (fun q => W r q *:
          ((spline_piece s1 r i)^`(eff_order) * (spline_piece s2 q i)^`(eff_order))))) G ->
        bil N N c (me_Q me) e = G (tmax s) - G (tmin s))].
Proof.
have Wt : forall r c, (r < D)%N -> (c < D)%N -> `|W r c - W c r| <= wtol.
  by move=> r c rD cD; rewrite sW // subrr normr0.
have [Q hQ [HI HS HP]] := curveQuad_all wfs eff_order Wr Wc Wt.
have := @sparse_dense _ s (fun i => segmentQuadraticIntegral wtol s W i eff_order).
move: (hQ); rewrite /curveQuadraticIntegral Wr Wc !eqxx /= => ->.
rewrite /me_new -/eff_order /curveQuadraticIntegralSparse.
case: (sparse_accumulate _ _) => [Q'|e|] //= eQ.
have CD : (C * D)%N = N by rewrite mulnC.
have bE c e : bil N N c Q' e = bil N N c Q e.
  by apply: eq_fsum => x _; apply: eq_fsum => y _; rewrite eQ.
exists (MotionError Q' N); split=> //=.
- by move=> x y xN yN; rewrite -!eQ; apply: HS => //; rewrite CD.
- move=> i j r q iC jC rD qD; rewrite -!eQ !(quad_blocks wfs Wr Wc Wt hQ) //.
  by rewrite gram_sym.
split=> [psd c|c e s1 s2 G h1 h2 h3]; rewrite bE -CD; first exact: HP.
exact: HI h1 h2 h3.
Qed.
End Term.

(* the stacked coefficients *)
Section Stack.
Variables (F : realFieldType).

Definition stacked (s : bspline F) : nat -> F :=
  fun x => bs_coef s (x %% bs_dim s)%N (x %/ bs_dim s)%N.

Lemma me_stackE (s : bspline F) x : (x < bs_dim s * bs_ncoef s)%N -> me_stack s x = stacked s x.
Proof.
rewrite mulnC => xN; have D0 : (0 < bs_dim s)%N by move: xN; case: (bs_dim s) => //; rewrite muln0.
have rD := ltn_pmod x D0.
have jC : (x %/ bs_dim s < bs_ncoef s)%N by rewrite ltn_divLR.
by rewrite /stacked -(coefficientVectorE rD jC) -divn_eq /me_stack /coefficientVector /=.
Qed.

Lemma me_errorE (s : bspline F) me : me_rows me = (bs_dim s * bs_ncoef s)%N ->
  me_error me s = Ok (bil (me_rows me) (me_rows me) (stacked s) (me_Q me) (stacked s)).
Proof.
move=> e; rewrite /me_error /map_coefficients e leqnn /=; congr (Ok _); apply: eq_fsum => x _.
by rewrite /mulv fsum_mull; apply: eq_fsum => y _; rewrite mulrA.
Qed.
Lemma me_rhsE (s : bspline F) me : me_rows me = (bs_dim s * bs_ncoef s)%N ->
  exists2 b, me_rhs me s = Ok b & forall x, b x = - fsum (me_rows me) (fun y => me_Q me x y * stacked s y).
Proof.
move=> e; rewrite /me_rhs /map_coefficients e leqnn /=; eexists; first by reflexivity.
by move=> x /=; rewrite /mulv -fsumN; apply: eq_fsum => y _; rewrite mulrN.
Qed.

End Stack.

(* buildHessian, entry by entry *)
Section Build.
Variables (F : realFieldType) (me : motion_error F) (s : bspline F) (active : nat -> bool).
Variables (blk base : nat -> nat).
Local Notation D := (bs_dim s).
Local Notation C := (bs_ncoef s).
Let pos i := base (blk i).
Let inb i x := (pos i <= x < pos i + D)%N.
#[local] Arguments fsum : simpl never.
Lemma fsumS (f : nat -> F) m : fsum m.+1 f = fsum m f + f m. Proof. by []. Qed.
Let b_u := mulv (me_rows me) (me_Q me) (me_stack s).

Lemma hess_rowE i m (H : mat F) x y :
  floop 0 m (fun j (H : mat F) => if active j
    then add_block H (pos j) (pos i) D D (get_block (me_Q me) (i * D) (j * D)) else H) H x y =
  H x y + fsum m (fun j => if [&& active j, inb j x & inb i y]
    then me_Q me (i * D + (x - pos j))%N (j * D + (y - pos i))%N else 0).
Proof.
elim: m => [|m IH]; first by rewrite floop_nil //= /fsum addr0.
rewrite floopSr //= fsumS; case: (active m) => /=; last by rewrite addr0 IH.
rewrite {1}/add_block IH /inb !andbA; case: ifP => h; last by rewrite addr0.
by rewrite /get_block addrA.
Qed.

Lemma me_buildE n H rhs : me_rows me = (D * C)%N -> exists H' rhs',
  [/\ me_build me s n active blk base H rhs = Ok (H', rhs'),
   (forall x y, H' x y = H x y + fsum n (fun i => fsum i.+1 (fun j =>
      if [&& active i, active j, inb j x & inb i y]
      then me_Q me (i * D + (x - pos j))%N (j * D + (y - pos i))%N else 0)))
  & (forall x, rhs' x = rhs x - fsum n (fun i =>
      if active i && inb i x then b_u (i * D + (x - pos i))%N else 0))].
Proof.
move=> e; rewrite /me_build e eqxx /= -e -/b_u.
elim: n => [|n [H' [rhs' [[IH] h1 h2]]]].
  by rewrite floop_nil //; exists H, rhs; split=> // [x y|x]; rewrite /fsum ?addr0 ?subr0.
rewrite floopSr // IH; case: (boolP (active n)) => an /=; last first.
  exists H', rhs'; split=> // [x y|x] /=.
    by rewrite h1 fsumS (negbTE an) /= (fsum0 (n := n.+1)) ?addr0.
  by rewrite h2 fsumS (negbTE an) /= addr0.
do 2!eexists; split; first by reflexivity.
- by move=> x y; rewrite (hess_rowE n n.+1) h1 [in RHS]fsumS an -addrA.
move=> x; rewrite fsumS /sub_segment -/(pos n) an /= -/(inb n x); case: ifP => _; last by rewrite h2 addr0.
by rewrite h2 /get_segment opprD addrA.
Qed.

(* the blocks of different active variables do not overlap *)
Variable n : nat.
Definition separate := forall i j, (i < n)%N -> (j < n)%N -> active i -> active j ->
  i <> j -> (pos i + D <= pos j)%N \/ (pos j + D <= pos i)%N.
Hypothesis sep : separate.

Lemma inb_unique i j x : (i < n)%N -> (j < n)%N -> active i -> active j -> inb i x -> inb j x -> i = j.
Proof.
move=> iN jN ai aj; rewrite /inb => bi bj; case: (i =P j) => // ne.
by have [h|h] := sep iN jN ai aj ne; move: bi bj h; clear; lia.
Qed.
Lemma inb_pos i r : (r < D)%N -> inb i (pos i + r).
Proof. by move=> rD; rewrite /inb leq_addr ltn_add2l. Qed.

Lemma hess_entry (H H' : mat F) : (forall x y, H' x y = H x y + fsum n (fun i => fsum i.+1 (fun j =>
      if [&& active i, active j, inb j x & inb i y]
      then me_Q me (i * D + (x - pos j))%N (j * D + (y - pos i))%N else 0))) ->
  forall i j r c, (j <= i)%N -> (i < n)%N -> active i -> active j -> (r < D)%N -> (c < D)%N ->
  H' (pos j + r)%N (pos i + c)%N = H (pos j + r)%N (pos i + c)%N + me_Q me (i * D + r)%N (j * D + c)%N.
Proof.
move=> HE i j r c ji iN ai aj rD cD; have jN := leq_ltn_trans ji iN.
rewrite HE; congr (_ + _); rewrite (fsum_pick (j := i)) //.
  rewrite (fsum_pick (j := j)) // ?ai ?aj ?inb_pos //= ?addKn //.
  move=> j' j'i ne; case: ifP => // /andP[aj' /andP[b _]]; case/eqP: ne.
  by apply: (inb_unique _ jN aj' aj b); [apply: leq_trans j'i _|exact: inb_pos].
move=> i' i'N ne; rewrite fsum0 // => j' _; case: ifP => // /and4P[ai' _ _ b]; case/eqP: ne.
by apply: (inb_unique i'N iN ai' ai b); exact: inb_pos.
Qed.

Lemma hess_other (H H' : mat F) : (forall x y, H' x y = H x y + fsum n (fun i => fsum i.+1 (fun j =>
      if [&& active i, active j, inb j x & inb i y]
      then me_Q me (i * D + (x - pos j))%N (j * D + (y - pos i))%N else 0))) ->
  forall x y, (forall i j, (j <= i < n)%N -> active i -> active j -> ~~ (inb j x && inb i y)) ->
  H' x y = H x y.
Proof.
move=> HE x y no; rewrite HE fsum0 ?addr0 // => i iN; rewrite fsum0 // => j ji.
case: ifP => // /and4P[ai aj b1 b2].
by have := no i j; rewrite -ltnS ji iN ai aj b1 b2; move=> /(_ isT isT isT).
Qed.
End Build.

(* quadratic forms *)
Section Quad.
Variables (F : realFieldType) (N : nat) (Q : nat -> nat -> F).
Hypothesis sQ : forall x y, (x < N)%N -> (y < N)%N -> Q x y = Q y x.
Local Notation qf := (fun a b => bil N N a Q b).

Lemma bil_expand a b : qf (fun x => a x + b x) (fun x => a x + b x) =
  qf a a + 2%:R * fsum N (fun x => b x * fsum N (fun y => Q x y * a y)) + qf b b.
Proof.
have e1 : qf b a = fsum N (fun x => b x * fsum N (fun y => Q x y * a y)).
  by apply: eq_fsum => x _; rewrite fsum_mull; apply: eq_fsum => y _; rewrite mulrA.
have e2 : qf a b = fsum N (fun x => b x * fsum N (fun y => Q x y * a y)).
  rewrite /bil exchange_fsum; apply: eq_fsum => x xN; rewrite fsum_mull; apply: eq_fsum => y yN.
  by rewrite (sQ xN yN); ring.
rewrite mulr_natl mulr2n -{1}e1 -e2 /bil -!fsumD; apply: eq_fsum => x _.
by rewrite -!fsumD; apply: eq_fsum => y _; ring.
Qed.

(* a stationary point on a coordinate subspace is a minimum there *)
Lemma quad_min (act : nat -> bool) (c d e : nat -> F) :
  (forall v, 0 <= qf v v) ->
  (forall x, (x < N)%N -> ~~ act x -> d x = 0) -> (forall x, (x < N)%N -> ~~ act x -> e x = 0) ->
  (forall x, (x < N)%N -> act x ->
    fsum N (fun y => Q x y * d y) = - fsum N (fun y => Q x y * c y)) ->
  qf (fun x => c x + d x) (fun x => c x + d x) <= qf (fun x => c x + e x) (fun x => c x + e x).
Proof.
move=> psd d0 e0 st.
have -> : qf (fun x => c x + e x) (fun x => c x + e x) =
  qf (fun x => (c x + d x) + (e x - d x)) (fun x => (c x + d x) + (e x - d x)).
  by apply: eq_fsum => x _; apply: eq_fsum => y _; ring.
rewrite (bil_expand (fun x => c x + d x) (fun x => e x - d x)) fsum0 ?mulr0 ?addr0 ?ler_addl //.
move=> x xN; case: (boolP (act x)) => a; last by rewrite d0 // e0 // subrr mul0r.
rewrite (eq_fsum (g := fun y => Q x y * c y + Q x y * d y)); last by move=> y _; rewrite mulrDr.
by rewrite fsumD st // subrr mulr0.
Qed.
End Quad.

Section Newton.
Variables (F : realFieldType) (wtol : F) (s0 : bspline F) (W : dmat F) (eo : nat).
Hypotheses (wfs : wf s0) (t0 : 0 <= wtol).
Local Notation D := (bs_dim s0).
Local Notation C := (bs_ncoef s0).
Local Notation N := (bs_dim s0 * bs_ncoef s0)%N.
Hypotheses (Wr : dm_rows W = D) (Wc : dm_cols W = D).
Hypothesis sW : forall r c, (r < D)%N -> (c < D)%N -> W r c = W c r.
Variables (Cf : mat F) (active : nat -> bool) (blk base : nat -> nat).
Local Notation pos := (fun i => base (blk i)).
Local Notation s := (with_coef s0 Cf).
Hypothesis asc : ascending D C active pos.

Lemma asc_sep : separate s active blk base C.
Proof.
move=> i j iC jC ai aj ne; case: (ltngtP i j) => [lt|lt|//].
  by left; apply: asc.
by right; apply: asc.
Qed.

Lemma split_index x : (x < N)%N -> [/\ (x %/ D < C)%N, (x %% D < D)%N & x = (x %/ D * D + x %% D)%N].
Proof.
rewrite mulnC => xN; have D0 : (0 < D)%N by move: xN; case: (D) => //; rewrite muln0.
by split; [rewrite ltn_divLR|exact: ltn_pmod|exact: divn_eq].
Qed.
Lemma join_index i r : (i < C)%N -> (r < D)%N -> [/\ (i * D + r < N)%N, ((i * D + r) %/ D = i)%N
  & ((i * D + r) %% D = r)%N].
Proof.
move=> iC rD; have D0 : (0 < D)%N by move: rD; clear; lia.
rewrite divnMDl // divn_small // addn0 modnMDl modn_small //; split=> //.
by apply: (@leq_trans (i.+1 * D)); [rewrite mulSnr ltn_add2l|rewrite mulnC leq_mul2l iC orbT].
Qed.
Lemma sum_blocks (f : nat -> F) : fsum N f = fsum C (fun i => fsum D (fun r => f (i * D + r)%N)).
Proof. by rewrite mulnC fsum_nested. Qed.

Lemma stackedE (M : mat F) i r : (i < C)%N -> (r < D)%N -> stacked (with_coef s0 M) (i * D + r)%N = M r i.
Proof. by move=> iC rD; have [_ d m] := join_index iC rD; rewrite /stacked /= d m. Qed.

Section Built.
Variables (me : motion_error F) (H : mat F) (rhs : vec F).
Hypothesis hme : me_new wtol s0 W eo = Ok me.
Hypothesis hb : me_build me s C active blk base zerom zerov = Ok (H, rhs).

Lemma me_facts : [/\ me_rows me = N,
   (forall x y, (x < N)%N -> (y < N)%N -> me_Q me x y = me_Q me y x),
   (forall i j r q, (i < C)%N -> (j < C)%N -> (r < D)%N -> (q < D)%N ->
      me_Q me (i * D + r)%N (j * D + q)%N = me_Q me (j * D + r)%N (i * D + q)%N)
   & (forall v : nat -> F, 0 <= bil D D v W v) -> forall c, 0 <= bil N N c (me_Q me) c].
Proof.
have [me' [e h1 h2 h3 [h4 _]]] := me_newE eo wfs t0 Wr Wc sW.
by move: e; rewrite hme => -[->].
Qed.

Lemma built : (forall i j r c, (i < C)%N -> (j < C)%N -> active i -> active j -> (r < D)%N -> (c < D)%N ->
    upper_sym H (pos i + r)%N (pos j + c)%N = me_Q me (i * D + r)%N (j * D + c)%N) /\
  (forall i r, (i < C)%N -> active i -> (r < D)%N ->
    rhs (pos i + r)%N = - fsum N (fun y => me_Q me (i * D + r)%N y * stacked s y)).
Proof.
have [mr sQ swQ _] := me_facts.
have [H' [rhs' [e HE RE]]] := @me_buildE _ me s active blk base C zerom zerov mr.
move: e; rewrite hb => -[? ?]; subst H' rhs'; split.
  move=> i j r c iC jC ai aj rD cD; rewrite /upper_sym.
  have HH := @hess_entry _ me s active blk base C asc_sep zerom H HE.
  have bnd a b : (a < C)%N -> (b < D)%N -> (a * D + b < N)%N by move=> aC bD; case: (join_index aC bD).
  case: (ltngtP i j) => ij.
  - have le := asc ij jC ai aj.
    rewrite [(_ <= _)%N](_ : _ = true); last by move: le rD; clear; lia.
    by rewrite (HH j i r c (ltnW ij)) // add0r swQ.
  - have le := asc ij iC aj ai.
    rewrite [(_ <= _)%N](_ : _ = false); last by move: le cD; clear; lia.
    by rewrite (HH i j c r (ltnW ij)) // add0r [LHS]swQ // [LHS]sQ //; apply: bnd.
  - move: ai aj iC jC; rewrite -ij => ai _ iC _.
    case: ifP => _; rewrite (HH i i _ _ (leqnn i)) // add0r //.
    by rewrite sQ //; apply: bnd.
move=> i r iC ai rD; rewrite RE sub0r; congr (- _); rewrite (fsum_pick (j := i)) //.
  rewrite ai /= leq_addr ltn_add2l rD /= addKn /mulv mr; apply: eq_fsum => y yN.
  by rewrite me_stackE.
move=> j jC ne; case: ifP => // /andP[aj b]; case/eqP: ne.
by apply: (inb_unique asc_sep jC iC aj ai b); rewrite leq_addr ltn_add2l.
Qed.

Let step dx : nat -> F := fun x => if active (x %/ D)%N then dx (pos (x %/ D) + x %% D)%N else 0.

Lemma sum_step dx (f : nat -> F) : fsum N (fun y => f y * step dx y) =
  active_sum D C active (fun j c => f (j * D + c)%N * dx (pos j + c)%N).
Proof.
rewrite sum_blocks; apply: eq_fsum => j jC; case: ifP => aj.
  by apply: eq_fsum => c cD; have [_ d m] := join_index jC cD; rewrite /step d m aj.
by rewrite fsum0 // => c cD; have [_ d m] := join_index jC cD; rewrite /step d aj mulr0.
Qed.

Lemma me_errorM (M : mat F) : me_error me (with_coef s0 M) =
  Ok (bil N N (stacked (with_coef s0 M)) (me_Q me) (stacked (with_coef s0 M))).
Proof. by have [mr _ _ _] := me_facts; rewrite me_errorE mr. Qed.

(* E(c + dx) = E(c) - 2 rhs.dx + dx^T H dx *)
Lemma me_model dx : exists E E', [/\ me_error me s = Ok E,
   me_error me (stepped s active pos dx) = Ok E'
   & E' = E - 2%:R * active_sum D C active (fun i r => rhs (pos i + r)%N * dx (pos i + r)%N)
        + active_sum D C active (fun i r => active_sum D C active (fun j c =>
            dx (pos i + r)%N * upper_sym H (pos i + r)%N (pos j + c)%N * dx (pos j + c)%N))].
Proof.
have [mr sQ _ _] := me_facts; have [HH RR] := built.
do 2!eexists; split; [exact: me_errorM|exact: (me_errorM _)|].
have ext : forall x, stacked (stepped s active pos dx) x = stacked s x + step dx x by [].
rewrite (_ : bil N N _ _ _ = bil N N (fun x => stacked s x + step dx x) (me_Q me)
   (fun x => stacked s x + step dx x)) // bil_expand //; congr (_ + _ + _).
  rewrite -mulrN; congr (_ * _).
  rewrite (eq_fsum (g := fun x => fsum N (fun y => me_Q me x y * stacked s y) * step dx x)); last first.
    by move=> x _; rewrite mulrC.
  rewrite sum_step /active_sum -fsumN; apply: eq_fsum => i iC; case: ifP => ai; last by rewrite oppr0.
  by rewrite -fsumN; apply: eq_fsum => r rD; rewrite RR // mulNr opprK.
transitivity (fsum N (fun x => fsum N (fun y => step dx x * me_Q me x y * step dx y))); first by [].
rewrite (eq_fsum (g := fun x => active_sum D C active (fun j c => me_Q me x (j * D + c)%N * dx (pos j + c)%N)
   * step dx x)); last first.
  move=> x _; rewrite -sum_step fsum_mulr; apply: eq_fsum => y _; ring.
rewrite sum_step; apply: eq_fsum => i iC; case: ifP => ai //.
apply: eq_fsum => r rD; rewrite fsum_mulr; apply: eq_fsum => j jC; case: ifP => aj; last by rewrite mul0r.
by rewrite fsum_mulr; apply: eq_fsum => c cD; rewrite HH //; ring.
Qed.

(* a solution of the normal equations minimises the error over the active coefficients *)
Lemma newton_exact dx : (forall v : nat -> F, 0 <= bil D D v W v) ->
  solves D C active pos H rhs dx ->
  forall M : mat F, (forall r i, (r < D)%N -> (i < C)%N -> ~~ active i -> M r i = Cf r i) ->
  exists E1 E2, [/\ me_error me (stepped s active pos dx) = Ok E1,
    me_error me (with_coef s0 M) = Ok E2 & E1 <= E2].
Proof.
move=> psdW sol M hM; have [mr sQ _ psd] := me_facts; have [HH RR] := built.
do 2!eexists; split; [exact: (me_errorM _)|exact: (me_errorM _)|].
pose e x := stacked (with_coef s0 M) x - stacked s x.
rewrite (_ : bil N N (stacked (with_coef s0 M)) _ _ =
  bil N N (fun x => stacked s x + e x) (me_Q me) (fun x => stacked s x + e x)); last first.
  by apply: eq_fsum => x _; apply: eq_fsum => y _; rewrite /e ![_ + (_ - _)]addrC !subrK.
apply: (@quad_min _ N (me_Q me) sQ (fun x => active (x %/ D)) (stacked s) (step dx) e).
- exact: psd psdW.
- by move=> x _ /negbTE a; rewrite /step a.
- move=> x xN a; have [iC rD xE] := split_index xN.
  by rewrite /e xE !stackedE // hM // subrr.
move=> x xN a; have [iC rD xE] := split_index xN.
rewrite sum_step {2}xE -RR // -(sol _ _ iC a rD).
apply: eq_fsum => j jC; case: ifP => aj //.
by apply: eq_fsum => c cD; rewrite HH // -xE.
Qed.
End Built.

(* what buildHessian adds to a Hessian and right-hand side it is given *)
Lemma build_entries me (H0 : mat F) (rhs0 : vec F) : me_new wtol s0 W eo = Ok me ->
  exists H rhs, [/\ me_build me s C active blk base H0 rhs0 = Ok (H, rhs),
   (forall i j r c, (j <= i < C)%N -> active i -> active j -> (r < D)%N -> (c < D)%N ->
     H (pos j + r)%N (pos i + c)%N =
     H0 (pos j + r)%N (pos i + c)%N + me_Q me (j * D + r)%N (i * D + c)%N),
   (forall x y, (forall i j, (j <= i < C)%N -> active i -> active j ->
       ~~ ((pos j <= x < pos j + D) && (pos i <= y < pos i + D)))%N -> H x y = H0 x y),
   (forall i r, (i < C)%N -> active i -> (r < D)%N -> rhs (pos i + r)%N =
     rhs0 (pos i + r)%N - fsum N (fun y => me_Q me (i * D + r)%N y * stacked s y))
   & (forall x, (forall i, (i < C)%N -> active i -> ~~ (pos i <= x < pos i + D)%N) ->
       rhs x = rhs0 x)].
Proof.
move=> hme; have [mr sQ swQ _] := me_facts hme.
have [H' [rhs' [e HE RE]]] := @me_buildE _ me s active blk base C H0 rhs0 mr.
exists H', rhs'; split=> //.
- move=> i j r c /andP[ji iC] ai aj rD cD.
  rewrite (@hess_entry _ me s active blk base C asc_sep H0 H' HE i j r c) // swQ //.
  exact: leq_ltn_trans ji iC.
- by move=> x y no; apply: (@hess_other _ me s active blk base C H0 H' HE).
- move=> i r iC ai rD; rewrite RE; congr (_ - _); rewrite (fsum_pick (j := i)) //.
    rewrite ai /= leq_addr ltn_add2l rD /= addKn /mulv mr; apply: eq_fsum => y yN.
    by rewrite me_stackE.
  move=> j jC ne; case: ifP => // /andP[aj b]; case/eqP: ne.
  by apply: (inb_unique asc_sep jC iC aj ai b); rewrite leq_addr ltn_add2l.
move=> x no; rewrite RE fsum0 ?subr0 // => i iC; case: ifP => // /andP[ai b].
by have := no i iC ai; rewrite b.
Qed.

(* the value: c^T Q c, the integral of the weighted derivative, not negative *)
Lemma me_value me G : me_new wtol s0 W eo = Ok me ->
  antiderivative_of s0 (fun i => fsum D (fun r => fsum D (fun q => W r q *:
    ((spline_piece s r i)^`(eff_order s0 eo) * (spline_piece s q i)^`(eff_order s0 eo))))) G ->
  me_error me s = Ok (G (tmax s0) - G (tmin s0)).
Proof.
move=> hme HG; have [me' [e mr _ _ [_ HI]]] := me_newE eo wfs t0 Wr Wc sW.
move: e; rewrite hme => -[eme]; subst me'; rewrite me_errorM //.
have [s1 e1 [o1 k1 b1 [d1 n1] c1]] := @setCoefficientVectorE _ s0 (DVec N (stacked s)) erefl.
congr (Ok _); apply: (HI _ _ _ _ _ e1 e1) => i i1 i2; have [P dP hP] := HG i i1 i2; exists P => //.
have pE r : (r < D)%N -> spline_piece s1 r i = spline_piece s r i.
  move=> rD; rewrite /spline_piece o1 n1 /kn k1; apply: eq_bigr => j _; congr (_ *: _).
  rewrite c1 ?ltn_ord // -[RHS](stackedE Cf) ?ltn_ord //.
by rewrite dP; apply: eq_fsum => r rD; apply: eq_fsum => q qD; rewrite !pE.
Qed.

Lemma me_nonneg me : me_new wtol s0 W eo = Ok me ->
  (forall v : nat -> F, 0 <= bil D D v W v) ->
  exists2 E, me_error me s = Ok E & 0 <= E.
Proof.
move=> hme psdW; have [_ _ _ psd] := me_facts hme.
by eexists; [exact: me_errorM|exact: psd].
Qed.

Lemma stacked_vector x : (x < N)%N -> stacked s x = coefficientVector s x.
Proof.
move=> xN; have [iC rD xE] := split_index xN.
rewrite xE stackedE // -[in RHS](_ : bs_dim s = D) // coefficientVectorE //.
Qed.

Lemma me_quadratic me : me_new wtol s0 W eo = Ok me ->
  me_error me s = Ok (bil N N (coefficientVector s) (me_Q me) (coefficientVector s)) /\
  exists2 b, me_rhs me s = Ok b &
    forall x, b x = - fsum N (fun y => me_Q me x y * coefficientVector s y).
Proof.
move=> hme; have [mr _ _ _] := me_facts hme; split.
  rewrite me_errorM //; congr (Ok _); apply: eq_fsum => x xN; apply: eq_fsum => y yN.
  by rewrite !stacked_vector.
have [b e h] := me_rhsE (s := s) mr; exists b => // x.
by rewrite h mr; congr (- _); apply: eq_fsum => y yN; rewrite stacked_vector.
Qed.

Lemma build_entries' me : me_new wtol s0 W eo = Ok me ->
  ascending D C active pos -> forall (H0 : mat F) (rhs0 : vec F),
  exists H rhs, [/\ me_build me s C active blk base H0 rhs0 = Ok (H, rhs),
   (forall i j r c, (j <= i < C)%N -> active i -> active j -> (r < D)%N -> (c < D)%N ->
     H (pos j + r)%N (pos i + c)%N =
     H0 (pos j + r)%N (pos i + c)%N + me_Q me (j * D + r)%N (i * D + c)%N),
   (forall x y, (forall i j, (j <= i < C)%N -> active i -> active j ->
       ~~ ((pos j <= x < pos j + D) && (pos i <= y < pos i + D)))%N -> H x y = H0 x y),
   (forall i r, (i < C)%N -> active i -> (r < D)%N -> rhs (pos i + r)%N =
     rhs0 (pos i + r)%N - fsum N (fun y => me_Q me (i * D + r)%N y * coefficientVector s y))
   & (forall x, (forall i, (i < C)%N -> active i -> ~~ (pos i <= x < pos i + D)%N) ->
       rhs x = rhs0 x)].
Proof.
move=> hme as' H0 rhs0; have [H [rhs [h1 h2 h3 h4 h5]]] := build_entries H0 rhs0 hme.
exists H, rhs; split=> // i r iC ai rD; rewrite h4 //; congr (_ - _).
by apply: eq_fsum => y yN; rewrite stacked_vector.
Qed.
End Newton.
