(* Quadratic integral matrices. *)
From mathcomp Require Import all_ssreflect all_algebra.
From mathcomp.algebra_tactics Require Import ring.
From mathcomp.zify Require Import zify.
From Verif Require Import Prelude CoxDeBoor CoxDeBoorProofs BSplineModel BSplineSpec
  BSplineProofs BSplineEvalProofs BSplineAccessProofs BSplineCoefProofs BSplineInitProofs
  BSplineMoreProofs BSplineIntegralProofs.
Set Implicit Arguments.
Unset Strict Implicit.
Unset Printing Implicit Defensive.
Import GRing.Theory Num.Theory Order.Theory.
Local Open Scope ring_scope.

Lemma fsumS (V : zmodType) n (f : nat -> V) : fsum n.+1 f = fsum n f + f n.
Proof. by []. Qed.

Lemma deriv_fsum (F : realFieldType) n (f : nat -> {poly F}) :
  (fsum n f)^`() = fsum n (fun i => (f i)^`()).
Proof. by rewrite !fsumE raddf_sum. Qed.

Section Bil.
Variable F : fieldType.
Lemma eq_bil n m (a : nat -> F) A b a' A' b' : (forall x, (x < n)%N -> a x = a' x) ->
  (forall x y, (x < n)%N -> (y < m)%N -> A x y = A' x y) ->
  (forall x, (x < m)%N -> b x = b' x) -> bil n m a A b = bil n m a' A' b'.
Proof.
move=> ha hA hb; apply: eq_fsum => x xn; apply: eq_fsum => y yn.
by rewrite ha // hA // hb.
Qed.

Lemma bil_mulm n m N a (A B : mat F) b :
  bil n m a (mulm N A B) b = bil n N a A (fun x => fsum m (fun y => B x y * b y)).
Proof.
apply: eq_fsum => x _; rewrite (eq_fsum (g := fun y => fsum N (fun z => a x * A x z * (B z y * b y)))).
  by rewrite exchange_fsum; apply: eq_fsum => z _; rewrite -fsum_mull.
by move=> y _; rewrite /mulm fsum_mull fsum_mulr; apply: eq_fsum => z _; rewrite !mulrA.
Qed.

Lemma bil_mulm_tr n m N a (A B : mat F) b :
  bil n m a (mulm N (trm A) B) b = bil N m (fun x => fsum n (fun y => A x y * a y)) B b.
Proof.
rewrite /bil exchange_fsum [RHS]exchange_fsum; apply: eq_fsum => y _.
rewrite (eq_fsum (g := fun x => fsum N (fun z => A z x * a x * B z y * b y))).
  by rewrite exchange_fsum; apply: eq_fsum => z _; rewrite -!fsum_mulr.
move=> x _; rewrite /mulm /trm fsum_mull fsum_mulr; apply: eq_fsum => z _; ring.
Qed.

Lemma bil_sandwich n N (a b : nat -> F) (M W : mat F) :
  bil n n a (mulm N (mulm N (trm M) W) M) b = bil N N (mulv n M a) W (mulv n M b).
Proof. by rewrite bil_mulm bil_mulm_tr. Qed.

Lemma bil_unit n (A : nat -> nat -> F) x y : (x < n)%N -> (y < n)%N ->
  bil n n (fun i => (i == x)%:R) A (fun i => (i == y)%:R) = A x y.
Proof.
move=> xn yn; rewrite /bil (fsum_pick (j := x)) //.
  rewrite (fsum_pick (j := y)) // ?eqxx ?mul1r ?mulr1 //.
  by move=> i _ /negbTE ->; rewrite mulr0.
by move=> i _ /negbTE ->; rewrite fsum0 // => j _; rewrite !mul0r.
Qed.

Lemma fsum_window (V : zmodType) N r0 m (f : nat -> V) : (r0 + m <= N)%N ->
  (forall i, (i < N)%N -> ~~ ((r0 <= i) && (i < r0 + m))%N -> f i = 0) ->
  fsum N f = fsum m (fun i => f (r0 + i)%N).
Proof.
move=> le h; rewrite -(subnKC le) fsum_cat fsum_cat.
rewrite (fsum0 (n := r0)) ?add0r; last by move=> i ir; apply: h; lia.
rewrite (fsum0 (n := (N - _)%N)) ?addr0 // => i iN; apply: h; lia.
Qed.

Lemma bil_add_block N r0 m (a b : nat -> F) (Q B : mat F) : (r0 + m <= N)%N ->
  bil N N a (fun r c => if [&& r0 <= r, r < r0 + m, r0 <= c & c < r0 + m]%N
             then Q r c + B (r - r0)%N (c - r0)%N else Q r c) b =
  bil N N a Q b + bil m m (fun i => a (r0 + i)%N) B (fun i => b (r0 + i)%N).
Proof.
move=> le.
have -> : bil m m (fun i => a (r0 + i)%N) B (fun i => b (r0 + i)%N) =
  bil N N a (fun r c => if [&& r0 <= r, r < r0 + m, r0 <= c & c < r0 + m]%N
     then B (r - r0)%N (c - r0)%N else 0) b.
  rewrite /bil [RHS](fsum_window (r0 := r0) (m := m)) //.
    apply: eq_fsum => x xm; rewrite [RHS](fsum_window (r0 := r0) (m := m) le).
      by apply: eq_fsum => y ym; rewrite !leq_addr !ltn_add2l xm ym /= !addKn.
    by move=> y yN /negbTE h; rewrite h !andbF mulr0 mul0r.
  move=> x xN /negbTE h; apply: fsum0 => y yN.
  by rewrite andbA h mulr0 mul0r.
rewrite /bil -fsumD; apply: eq_fsum => x _; rewrite -fsumD; apply: eq_fsum => y _.
case: ifP => _; ring.
Qed.
End Bil.

(* Positive semidefiniteness of Cauchy matrices, tensored with a semidefinite form. *)
Section Cauchy.
Variable F : realFieldType.
Variable D : nat.
Variable W : nat -> nat -> F.
Hypothesis psd : forall v : nat -> F, 0 <= bil D D v W v.

Lemma cauchy_psd m (x : nat -> F) (a : nat -> nat -> F) :
  (forall p, 0 < x p) ->
  0 <= fsum m (fun p => fsum m (fun q => bil D D (a p) W (a q) / (x p + x q))).
Proof.
move=> x0; elim: m a => [//|m IH] a.
have xx p q : x p + x q != 0 by rewrite gt_eqF // addr_gt0.
pose f p := (x p - x m) / (x p + x m).
have key p q : (x p + x q)^-1 = 2%:R * x m * ((x p + x m)^-1 * (x q + x m)^-1)
    + f p * f q / (x p + x q).
  by rewrite /f; field; rewrite !xx.
pose v r := fsum m.+1 (fun p => (x p + x m)^-1 * a p r).
have -> : fsum m.+1 (fun p => fsum m.+1 (fun q => bil D D (a p) W (a q) / (x p + x q)))
  = 2%:R * x m * bil D D v W v +
    fsum m (fun p => fsum m (fun q => bil D D (fun r => f p * a p r) W (fun r => f q * a q r)
      / (x p + x q))).
  have scale y z p q : bil D D (fun r => y * a p r) W (fun r => z * a q r)
      = y * z * bil D D (a p) W (a q).
    rewrite /bil fsum_mull; apply: eq_fsum => r _; rewrite fsum_mull; apply: eq_fsum => c _; ring.
  have e1 : bil D D v W v = fsum m.+1 (fun p => fsum m.+1 (fun q =>
      (x p + x m)^-1 * (x q + x m)^-1 * bil D D (a p) W (a q))).
    rewrite /bil /v.
    transitivity (fsum D (fun r => fsum D (fun c => fsum m.+1 (fun p => fsum m.+1 (fun q =>
       (x p + x m)^-1 * (x q + x m)^-1 * (a p r * W r c * a q c)))))).
      apply: eq_fsum => r _; apply: eq_fsum => c _.
      rewrite fsum_mulr fsum_mulr; apply: eq_fsum => p _; rewrite fsum_mull; apply: eq_fsum => q _.
      ring.
    under eq_fsum => r _ do rewrite exchange_fsum.
    rewrite exchange_fsum; apply: eq_fsum => p _.
    under eq_fsum => r _ do rewrite exchange_fsum.
    rewrite exchange_fsum; apply: eq_fsum => q _.
    rewrite fsum_mull; apply: eq_fsum => r _; by rewrite fsum_mull.
  have e2 : fsum m.+1 (fun p => fsum m.+1 (fun q =>
       bil D D (fun r => f p * a p r) W (fun r => f q * a q r) / (x p + x q))) =
     fsum m (fun p => fsum m (fun q => bil D D (fun r => f p * a p r) W (fun r => f q * a q r)
      / (x p + x q))).
    have fm : f m = 0 by rewrite /f subrr mul0r.
    rewrite fsumS [X in _ + X]fsum0 ?addr0; last first.
      by move=> q _; rewrite scale fm !mul0r.
    apply: eq_fsum => p _; by rewrite fsumS scale fm mulr0 !mul0r addr0.
  rewrite -e2 e1 fsum_mull -fsumD; apply: eq_fsum => p _; rewrite fsum_mull -fsumD.
  apply: eq_fsum => q _; rewrite scale [in LHS]key; ring.
rewrite addr_ge0 ?IH // mulr_ge0 ?psd // mulr_ge0 ?ler0n // ltW //.
Qed.
End Cauchy.

(* Loop contents *)
Section Entries.
Variable F : realFieldType.
Variable s : bspline F.
Local Notation k := (bs_order s).
Local Notation D := (bs_dim s).

Lemma Bij_entries i j : (i < size (bs_basis s))%N -> (j < k)%N ->
  exists2 B, Bij s i j = Ok B & forall r p c, (r < D)%N -> (p < k)%N -> (c < D)%N ->
    B (r * k + p)%N c = (r == c)%:R * basis_at s i p j.
Proof.
move=> ib jk; rewrite /Bij ib jk /=; eexists; first by reflexivity.
move=> r p c rD pk cD.
have H : forall m, floop 0 m (fun d (B : mat F) =>
   set_block B (d * k) d k 1 (fun r _ => basis_at s i r j)) zerom (r * k + p)%N c
   = (r < m)%N%:R * ((r == c)%:R * basis_at s i p j).
  elim=> [|m IH]; first by rewrite floop_nil // mul0r.
  rewrite floopSr // /set_block IH.
  case: (ltngtP r m) => [lt|gt|->].
  - have -> : (m * k <= r * k + p)%N = false.
      apply/negbTE; rewrite -ltnNge; apply: (@leq_trans (r.+1 * k)%N).
        by rewrite mulSnr ltn_add2l.
      by rewrite leq_mul2r lt orbT.
    by rewrite /= ltnS ltnW.
  - have -> : (r * k + p < m * k + k)%N = false.
      apply/negbTE; rewrite -leqNgt -mulSnr; apply: (@leq_trans (r * k)%N); last exact: leq_addr.
      by rewrite leq_mul2r gt orbT.
    by rewrite andbF /= ltnS leqNgt gt.
  rewrite leq_addr ltn_add2l pk /= ltnSn addKn addn1 ltnS.
  by rewrite -eqn_leq mul1r; case: eqP => // _; rewrite ?mul1r ?mul0r.
by rewrite H rD mul1r.
Qed.

Lemma Mi_entries i : (i < size (bs_basis s))%N ->
  exists2 M, Mi s i = Ok M & forall r p j c, (r < D)%N -> (p < k)%N -> (j < k)%N -> (c < D)%N ->
    M (r * k + p)%N (j * D + c)%N = (r == c)%:R * basis_at s i p j.
Proof.
move=> ib; rewrite /Mi ib /=.
have [||j0 M /andP[_ j0k] HM|M -> HM] := @oloop_ind (mat F) 0 k (fun j (M : mat F) =>
    do B <- Bij s i j ; Ok (set_block M 0 (j * D) (D * k) D B)) zerom
  (fun m M => forall r p j c, (r < D)%N -> (p < k)%N -> (j < m)%N -> (c < D)%N ->
    M (r * k + p)%N (j * D + c)%N = (r == c)%:R * basis_at s i p j); [by []|by []| |by exists M].
have [B -> HB] := Bij_entries ib j0k; rewrite /=; eexists; first by reflexivity.
move=> r p j c rD pk; rewrite ltnS leq_eqVlt => jj cD; rewrite /set_block leq0n add0n.
have -> /= : (r * k + p < D * k)%N.
  apply: (@leq_trans (r.+1 * k)%N); first by rewrite mulSnr ltn_add2l.
  by rewrite leq_mul2r rD orbT.
case/orP: jj => [/eqP ->|lt].
  by rewrite leq_addr ltn_add2l cD /= addKn subn0 HB.
have -> /= : (j0 * D <= j * D + c)%N = false.
  apply/negbTE; rewrite -ltnNge; apply: (@leq_trans (j.+1 * D)%N).
    by rewrite mulSnr ltn_add2l.
  by rewrite leq_mul2r lt orbT.
exact: HM.
Qed.
End Entries.

Section Grid.
Variable F : realFieldType.
Lemma grid_bounds n r r0 p : (p < n)%N ->
  ((r0 * n <= r * n + p) && (r * n + p < r0 * n + n))%N = (r == r0).
Proof.
move=> pn; case: (ltngtP r r0) => [lt|gt|->].
- have -> // : (r0 * n <= r * n + p)%N = false.
  apply/negbTE; rewrite -ltnNge; apply: (@leq_trans (r.+1 * n)%N).
    by rewrite mulSnr ltn_add2l.
  by rewrite leq_mul2r lt orbT.
- have -> : (r * n + p < r0 * n + n)%N = false.
    apply/negbTE; rewrite -leqNgt -mulSnr; apply: (@leq_trans (r * n)%N); last exact: leq_addr.
    by rewrite leq_mul2r gt orbT.
  by rewrite andbF.
by rewrite leq_addr ltn_add2l pn.
Qed.

Lemma set_block_grid (A B : mat F) n m r0 c0 r c p q : (p < n)%N -> (q < m)%N ->
  set_block A (r0 * n) (c0 * m) n m B (r * n + p)%N (c * m + q)%N =
  if (r == r0) && (c == c0) then B p q else A (r * n + p)%N (c * m + q)%N.
Proof.
move=> pn qm; rewrite /set_block andbA !grid_bounds //.
by case: ifP => // /andP[/eqP -> /eqP ->]; rewrite !addKn.
Qed.

Lemma add_block_grid (A B : mat F) n m r0 c0 r c p q : (p < n)%N -> (q < m)%N ->
  add_block A (r0 * n) (c0 * m) n m B (r * n + p)%N (c * m + q)%N =
  A (r * n + p)%N (c * m + q)%N + (if (r == r0) && (c == c0) then B p q else 0).
Proof.
move=> pn qm; rewrite /add_block andbA !grid_bounds //.
by case: ifP => [/andP[/eqP -> /eqP ->]|_]; rewrite ?addr0 // !addKn.
Qed.
End Grid.

Section Segment.
Variable F : realFieldType.
Variable wtol : F.
Variable s : bspline F.
Hypothesis wfs : wf s.
Local Notation k := (bs_order s).
Local Notation D := (bs_dim s).
Local Notation n := (size (bs_knots s)).

(* the weighted block matrix *)
Lemma WV_entries (W : nat -> nat -> F) (V : mat F) :
  (forall r c, (r < D)%N -> (c < D)%N -> `|W r c - W c r| <= wtol) ->
  exists2 WV, oloop 0 D (fun r (WV : mat F) =>
     oloop 0 D (fun c (WV : mat F) =>
       assert `|W r c - W c r| <= wtol raise ExnSpline ;
       Ok (set_block WV (k * r) (k * c) k k (fun a b => W r c * V a b))) WV) zerom = Ok WV &
  forall r c p q, (r < D)%N -> (c < D)%N -> (p < k)%N -> (q < k)%N ->
    WV (r * k + p)%N (c * k + q)%N = W r c * V p q.
Proof.
move=> Wtol.
apply: (@oloop_ind (mat F) 0 D _ zerom (fun r0 WV => forall r c p q, (r < r0)%N ->
  (c < D)%N -> (p < k)%N -> (q < k)%N -> WV (r * k + p)%N (c * k + q)%N = W r c * V p q)) => //.
move=> r0 X /andP[_ r0D] HX.
have := @oloop_ind (mat F) 0 D (fun c (WV : mat F) =>
       assert `|W r0 c - W c r0| <= wtol raise ExnSpline ;
       Ok (set_block WV (k * r0) (k * c) k k (fun a b => W r0 c * V a b))) X
   (fun c0 WV => (forall c p q, (c < c0)%N -> (p < k)%N -> (q < k)%N ->
        WV (r0 * k + p)%N (c * k + q)%N = W r0 c * V p q) /\
      (forall r c p q, (r < r0)%N -> (c < D)%N -> (p < k)%N -> (q < k)%N ->
        WV (r * k + p)%N (c * k + q)%N = W r c * V p q)).
case=> //.
  move=> c0 Y /andP[_ c0D] [H1 H2]; rewrite Wtol //=; eexists; first by reflexivity.
  rewrite ![(k * _)%N]mulnC; split=> [c p q|r c p q r1 cD pk qk].
    rewrite ltnS leq_eqVlt => h pk qk; rewrite set_block_grid // eqxx /=.
    case/orP: h => [/eqP ->|h]; first by rewrite eqxx.
    by case: eqP h => [->|_ h]; rewrite ?ltnn // H1.
  by rewrite set_block_grid // (ltn_eqF r1) /= H2.
move=> Y -> [H1 H2]; exists Y => // r c p q; rewrite ltnS leq_eqVlt => /orP[/eqP ->|h] cD pk qk.
  exact: H1.
exact: H2.
Qed.

Lemma WVdiag_entries (w : nat -> F) (V : mat F) r c p q :
  (r < D)%N -> (c < D)%N -> (p < k)%N -> (q < k)%N ->
  floop 0 D (fun r (WV : mat F) =>
       set_block WV (k * r) (k * r) k k (fun a b => w r * V a b)) zerom
    (r * k + p)%N (c * k + q)%N = (r == c)%:R * w r * V p q.
Proof.
move=> rD cD pk qk.
have H : forall m, floop 0 m (fun r (WV : mat F) =>
       set_block WV (k * r) (k * r) k k (fun a b => w r * V a b)) zerom
    (r * k + p)%N (c * k + q)%N = (r < m)%N%:R * ((r == c)%:R * w r * V p q).
  elim=> [|m IH]; first by rewrite floop_nil // mul0r.
  rewrite floopSr // ![(k * _)%N]mulnC set_block_grid // IH [in RHS]ltnS [in RHS]leq_eqVlt.
  case: (eqVneq r m) => [->|ne] /=; last by [].
  rewrite ltnn eq_sym; case: eqP => // _; rewrite ?mul1r ?mul0r //.
by rewrite H rD mul1r.
Qed.

(* The monomial coefficients of component r of the curve with coefficient vector c on
   the interval of basis matrix i. *)
Definition vmono (c : nat -> F) r i p : F :=
  fsum k (fun j => basis_at s i p j * c (j * D + r)%N).

Lemma mulv_Mi M i (c : nat -> F) r p :
  (forall r p j c, (r < D)%N -> (p < k)%N -> (j < k)%N -> (c < D)%N ->
    M (r * k + p)%N (j * D + c)%N = (r == c)%:R * basis_at s i p j) ->
  (r < D)%N -> (p < k)%N ->
  mulv (k * D) M c (r * k + p)%N = vmono c r i p.
Proof.
move=> HM rD pk; rewrite /mulv fsum_nested; apply: eq_fsum => j jk.
rewrite (fsum_pick (j := r)) //; first by rewrite HM // eqxx mul1r.
by move=> x xD ne; rewrite HM // eq_sym (negbTE ne) !mul0r.
Qed.

Lemma bil_blocks (W : nat -> nat -> F) (V WV : mat F) (a b : nat -> F) :
  (forall r c p q, (r < D)%N -> (c < D)%N -> (p < k)%N -> (q < k)%N ->
    WV (r * k + p)%N (c * k + q)%N = W r c * V p q) ->
  bil (D * k) (D * k) a WV b = fsum D (fun r => fsum D (fun c => W r c *
     bil k k (fun p => a (r * k + p)%N) V (fun q => b (c * k + q)%N))).
Proof.
move=> H; rewrite /bil fsum_nested; apply: eq_fsum => r rD.
under eq_fsum => p _ do rewrite fsum_nested.
rewrite exchange_fsum; apply: eq_fsum => c cD; rewrite fsum_mull; apply: eq_fsum => p pk.
rewrite fsum_mull; apply: eq_fsum => q qk; rewrite H //; ring.
Qed.

Lemma bil_derive_V d (Dm V : mat F) a b :
  bil k k a (derive_V k d Dm V) b = bil k k (iter d (mulv k Dm) a) V (iter d (mulv k Dm) b).
Proof.
elim: d a b => [|d IH] a b; first by rewrite /derive_V floop_nil.
by rewrite /derive_V floopSr // -/(derive_V k d Dm V) bil_sandwich IH !iterSr.
Qed.

(* polynomial with given coefficients in powers of the local coordinate *)
Definition lpoly i (a : nat -> F) : {poly F} := fsum k (fun q => a q *: lin (kn s) i ^+ q).

Lemma Dii_entries i : (i < size (bs_basis s))%N -> (i + 2 * k <= n)%N ->
  exists2 Dm, Dii s i = Ok Dm & forall r c, (r < k)%N ->
    Dm r c = if (c == r.+1) && (r.+1 < k)%N then
       r.+1%:R * (if kn s (k + i - 1)%N < kn s (k + i)%N
                  then (kn s (k + i)%N - kn s (k + i - 1)%N)^-1 else 0)
     else 0.
Proof.
move=> ib iN; have hk := wf_order wfs; have hn := wf_size wfs.
have h1 : (minimumKnotsRequired k <= n)%N.
  by rewrite /minimumKnotsRequired /numKnotsRequired /numCoefficientsRequired; move: hn hk; clear; lia.
have h2 : (i < numValidTimeSegments k n)%N.
  by rewrite /numValidTimeSegments; move: iN; clear; lia.
have h3 : (k + i < n)%N by move: iN hk; clear; lia.
rewrite /Dii ib /timeInterval_i h1 h2 h3 /=; eexists; first by reflexivity.
move=> r c rk; set rd := if 0 < _ then _ else _.
have -> : (if kn s (k + i - 1)%N < kn s (k + i)%N
           then (kn s (k + i)%N - kn s (k + i - 1)%N)^-1 else 0) = rd.
  by rewrite /rd subr_gt0 div1r.
have H : forall m, floop 0 m (fun r (Dm : mat F) =>
        fun r' c' => if (r' == r) && (c' == r.+1) then r.+1%:R * rd else Dm r' c') zerom r c =
   if (c == r.+1) && (r < m)%N then r.+1%:R * rd else 0.
  elim=> [|m IH]; first by rewrite floop_nil // andbF.
  rewrite floopSr // IH [in RHS]ltnS [in RHS]leq_eqVlt.
  by case: (eqVneq r m) => [->|ne] /=; rewrite ?andbT ?ltnn ?andbF.
rewrite H; congr (if _ && _ then _ else _); move: rk hk; clear; lia.
Qed.

Lemma lpoly_deriv i (Dm : mat F) (a : nat -> F) : kn s i < kn s i.+1 ->
  (forall r c, (r < k)%N -> Dm r c = if (c == r.+1) && (r.+1 < k)%N then
       r.+1%:R * (kn s i.+1 - kn s i)^-1 else 0) ->
  (lpoly i a)^`() = lpoly i (mulv k Dm a).
Proof.
move=> pos HD; have hk := wf_order wfs; rewrite /lpoly deriv_fsum.
have -> : k = k.-1.+1 by move: hk; clear; lia.
rewrite fsum_recl fsumS /= derivZ derivC scaler0 add0r.
have -> : mulv k.-1.+1 Dm a k.-1 = 0.
  rewrite /mulv fsum0 // => x xk; rewrite HD; last by move: hk; clear; lia.
  by rewrite (_ : (k.-1.+1 < k)%N = false) ?andbF ?mul0r //; move: hk; clear; lia.
rewrite scale0r addr0; apply: eq_fsum => q qk.
rewrite derivZ deriv_exp lin_deriv mul_polyC -scalerMnr -scaler_nat !scalerA -pred_Sn.
congr (_ *: _); rewrite /mulv (fsum_pick (j := q.+1)); last first.
- move=> x xk ne; rewrite HD; last by move: qk hk; clear; lia.
  by rewrite (negbTE ne) mul0r.
- by move: qk; clear; lia.
rewrite HD; last by move: qk hk; clear; lia.
rewrite eqxx (_ : (q.+1 < k)%N = true) //=; last by move: qk hk; clear; lia.
by rewrite mulrAC.
Qed.

Lemma lpoly_derivn i (Dm : mat F) (a : nat -> F) d : kn s i < kn s i.+1 ->
  (forall r c, (r < k)%N -> Dm r c = if (c == r.+1) && (r.+1 < k)%N then
       r.+1%:R * (kn s i.+1 - kn s i)^-1 else 0) ->
  (lpoly i a)^`(d) = lpoly i (iter d (mulv k Dm) a).
Proof.
move=> pos HD; elim: d a => [|d IH] a; first by rewrite derivn0.
by rewrite derivnS IH iterS (lpoly_deriv _ pos HD).
Qed.

(* product of two pieces integrated over the interval *)
Lemma lpoly_integral i (a b : nat -> F) (P : {poly F}) : kn s i < kn s i.+1 ->
  P^`() = lpoly i a * lpoly i b ->
  bil k k a (fun r c => (r + c).+1%:R^-1 * (kn s i.+1 - kn s i)) b = P.[kn s i.+1] - P.[kn s i].
Proof.
move=> pos dP; set w := kn s i.+1 - kn s i.
have w0 : w != 0 by rewrite subr_eq0 gt_eqF.
pose R : {poly F} := fsum k (fun p => fsum k (fun q =>
   (a p * b q * ((p + q).+1%:R^-1 * w)) *: lin (kn s) i ^+ (p + q).+1)).
have dR : R^`() = lpoly i a * lpoly i b.
  rewrite /R /lpoly !fsumE raddf_sum mulr_suml; apply: eq_bigr => p _ /=.
  rewrite fsumE raddf_sum mulr_sumr; apply: eq_bigr => q _ /=.
  rewrite derivZ deriv_exp lin_deriv mul_polyC -scalerMnr -scaler_nat !scalerA -pred_Sn.
  rewrite -scalerAl -scalerAr scalerA exprD; congr (_ *: _).
  have : (p + q).+1%:R != 0 :> F by rewrite pnatr_eq0.
  move: ((p + q).+1%:R) => z z0; rewrite -/w; field; by rewrite w0 z0.
rewrite (@deriv_same _ P R) ?dP ?dR //.
have l1 : (lin (kn s) i).[kn s i.+1] = 1.
  by rewrite /lin !hornerZ !hornerD !hornerN !hornerX !hornerC -/w mulVf.
have l0 : (lin (kn s) i).[kn s i] = 0.
  by rewrite /lin !hornerZ !hornerD !hornerN !hornerX !hornerC subrr mulr0.
rewrite /R /bil !fsumE !horner_sum -sumrB; apply: eq_bigr => p _.
rewrite !fsumE !horner_sum -sumrB; apply: eq_bigr => q _.
rewrite !hornerZ !horner_exp l1 l0 expr1n expr0n mulr0 subr0 mulr1.
by rewrite mulrAC.
Qed.
End Segment.

Section Curve.
Variable F : realFieldType.
Variable wtol : F.
Variable s : bspline F.
Hypothesis wfs : wf s.
Local Notation k := (bs_order s).
Local Notation D := (bs_dim s).
Local Notation n := (size (bs_knots s)).
Local Notation C := (bs_ncoef s).

Lemma segment_facts i : (i < numValidTimeSegments k n)%N ->
  [/\ (i < size (bs_basis s))%N, (i + 2 * k <= n)%N, (k <= (k + i - 1).+1)%N,
      (k + i - 1 + k < n)%N & (k + i - 1).+1 = (k + i)%N].
Proof.
rewrite /numValidTimeSegments => h; have hk := wf_order wfs; rewrite size_basis //.
by split=> //; move: h hk; clear; lia.
Qed.

(* the segment form: sum over components of the weighted products *)
Definition seg_form (Wt : nat -> nat -> F) (c e : nat -> F) i d : F :=
  let w := kn s (k + i)%N - kn s (k + i - 1)%N in
  let Dm : mat F := fun r c => if (c == r.+1) && (r.+1 < k)%N then r.+1%:R * w^-1 else 0 in
  fsum D (fun r => fsum D (fun q => Wt r q *
    bil k k (iter d (mulv k Dm) (vmono s (fun x => c (i * D + x)%N) r i))
      (fun a b => (a + b).+1%:R^-1 * w)
      (iter d (mulv k Dm) (vmono s (fun x => e (i * D + x)%N) q i)))).

Lemma bil0 N (a b : nat -> F) (V : mat F) : (forall x y, V x y = 0) -> bil N N a V b = 0.
Proof. by move=> h; rewrite /bil fsum0 // => x _; rewrite fsum0 // => y _; rewrite h mulr0 mul0r. Qed.

(* agreement of Dm matters on k x k only *)
Lemma iter_mulv_eq (A B : mat F) (a b : nat -> F) d :
  (forall r c, (r < k)%N -> A r c = B r c) -> (forall r, (r < k)%N -> a r = b r) ->
  forall r, (r < k)%N -> iter d (mulv k A) a r = iter d (mulv k B) b r.
Proof.
move=> hA hab; elim: d => [|d IH] r rk //=; first exact: hab.
by apply: eq_fsum => x xk; rewrite hA // IH.
Qed.

Lemma core_form (Wt : nat -> nat -> F) i d (Dm V M WV : mat F) (c e : nat -> F) :
  (i < numValidTimeSegments k n)%N ->
  (forall r c, (r < k)%N -> Dm r c = if (c == r.+1) && (r.+1 < k)%N then
       r.+1%:R * (if kn s (k + i - 1)%N < kn s (k + i)%N
                  then (kn s (k + i)%N - kn s (k + i - 1)%N)^-1 else 0)
     else 0) ->
  (forall a b, V a b = (a + b).+1%:R^-1 * (kn s (k + i)%N - kn s (k + i - 1)%N)) ->
  (forall r p j c, (r < D)%N -> (p < k)%N -> (j < k)%N -> (c < D)%N ->
    M (r * k + p)%N (j * D + c)%N = (r == c)%:R * basis_at s i p j) ->
  (forall r c p q, (r < D)%N -> (c < D)%N -> (p < k)%N -> (q < k)%N ->
    WV (r * k + p)%N (c * k + q)%N = Wt r c * derive_V k d Dm V p q) ->
  bil (k * D) (k * D) (fun x => c (i * D + x)%N)
     (mulm (D * k) (mulm (D * k) (trm M) WV) M) (fun x => e (i * D + x)%N)
  = seg_form Wt c e i d.
Proof.
move=> iN HD HV HM HW; rewrite bil_sandwich (bil_blocks _ _ HW) /seg_form.
apply: eq_fsum => r rD; apply: eq_fsum => q qD; congr (_ * _).
rewrite bil_derive_V.
have [ib i2 ki iN' iS] := segment_facts iN.
have [lt|ge] := ltP (kn s (k + i - 1)%N) (kn s (k + i)%N).
  apply: eq_bil => [|x y _ _|]; last first.
  - apply: iter_mulv_eq => [x y xk|x xk]; first by rewrite HD // lt.
    exact: (mulv_Mi _ HM).
  - by rewrite HV.
  - apply: iter_mulv_eq => [x y xk|x xk]; first by rewrite HD // lt.
    exact: (mulv_Mi _ HM).
have eq : kn s (k + i)%N - kn s (k + i - 1)%N = 0.
  apply/eqP; rewrite subr_eq0 eq_le ge /=; apply: (kn_mono wfs).
    by move: (i) (k); clear; lia.
  by rewrite -iS; move: iN' (wf_order wfs); clear; lia.
by rewrite !bil0 // => [x y|x y]; rewrite ?HV eq mulr0.
Qed.

Lemma VE i : (i < numValidTimeSegments k n)%N -> exists2 V, Vi s i = Ok V &
  forall a b, V a b = (a + b).+1%:R^-1 * (kn s (k + i)%N - kn s (k + i - 1)%N).
Proof.
move=> h2; have [ib i2 ki iN' iS] := segment_facts h2.
have hk := wf_order wfs; have hn := wf_size wfs.
have h1 : (minimumKnotsRequired k <= n)%N.
  by rewrite /minimumKnotsRequired /numKnotsRequired /numCoefficientsRequired; move: hn hk; clear; lia.
have h3 : (k + i < n)%N by move: i2 hk; clear; lia.
rewrite /Vi /timeInterval_i h2 h1 h3 /=; eexists; first by reflexivity.
by [].
Qed.

(* segmentQuadraticIntegral as a bilinear form *)
Lemma segQuadE (W : dmat F) i d : (i < numValidTimeSegments k n)%N ->
  dm_rows W = D -> dm_cols W = D ->
  (forall r c, (r < D)%N -> (c < D)%N -> `|W r c - W c r| <= wtol) ->
  exists2 B, segmentQuadraticIntegral wtol s W i d = Ok B & forall c e,
    bil (k * D) (k * D) (fun x => c (i * D + x)%N) B (fun x => e (i * D + x)%N)
    = seg_form W c e i d.
Proof.
move=> iN Wr Wc Wt; have [ib i2 ki iN' iS] := segment_facts iN.
rewrite /segmentQuadraticIntegral ib Wr Wc !eqxx /=.
have [Dm -> HD] := Dii_entries wfs ib i2.
have [V -> HV] := VE iN.
have [M -> HM] := Mi_entries ib; rewrite /=.
have [WV -> HW] := @WV_entries _ wtol s W (derive_V k d Dm V) Wt.
rewrite /=; eexists; first by reflexivity.
by move=> c e; apply: (core_form _ _ iN HD HV HM HW).
Qed.

Lemma segQuadDiagE (W : dvec F) i d : (i < numValidTimeSegments k n)%N ->
  dv_size W = D ->
  exists2 B, segmentQuadraticIntegralDiag s W i d = Ok B & forall c e,
    bil (k * D) (k * D) (fun x => c (i * D + x)%N) B (fun x => e (i * D + x)%N)
    = seg_form (fun r c => (r == c)%:R * W r) c e i d.
Proof.
move=> iN Wr; have [ib i2 ki iN' iS] := segment_facts iN.
rewrite /segmentQuadraticIntegralDiag ib Wr !eqxx /=.
have [Dm -> HD] := Dii_entries wfs ib i2.
have [V -> HV] := VE iN.
have [M -> HM] := Mi_entries ib; rewrite /=.
eexists; first by reflexivity.
move=> c e; apply: (core_form _ _ iN HD HV HM) => r q p p' rD qD pk p'k.
exact: (@WVdiag_entries _ s W).
Qed.

(* accumulation *)
Lemma accumulateE (seg : nat -> outcome (mat F)) (form : (nat -> F) -> (nat -> F) -> nat -> F) :
  (forall i, (i < numValidTimeSegments k n)%N -> exists2 B, seg i = Ok B & forall c e,
     bil (k * D) (k * D) (fun x => c (i * D + x)%N) B (fun x => e (i * D + x)%N) = form c e i) ->
  exists2 Q, curve_accumulate s seg = Ok Q & forall c e,
     bil (C * D) (C * D) c Q e = fsum (numValidTimeSegments k n) (form c e).
Proof.
move=> H; apply: (@oloop_ind (mat F) 0 (numValidTimeSegments k n) _ zerom (fun m Q =>
   forall c e, bil (C * D) (C * D) c Q e = fsum m (form c e))) => //.
  by move=> c e; apply: bil0.
move=> i Q /andP[_ iN] HQ; have [B -> HB] := H i iN.
have iC : (i + k <= C)%N.
  by move: iN (wf_cols wfs) (wf_order wfs); rewrite /numValidTimeSegments; clear; lia.
rewrite /= iC; eexists; first by reflexivity.
move=> c e; rewrite /add_block bil_add_block; last by rewrite -mulnDl leq_mul2r iC orbT.
by rewrite HQ HB.
Qed.

Lemma curveQuadE (W : dmat F) d : dm_rows W = D -> dm_cols W = D ->
  (forall r c, (r < D)%N -> (c < D)%N -> `|W r c - W c r| <= wtol) ->
  exists2 Q, curveQuadraticIntegral wtol s W d = Ok Q & forall c e,
    bil (C * D) (C * D) c Q e
      = fsum (numValidTimeSegments k n) (fun i => seg_form W c e i d).
Proof.
move=> Wr Wc Wt; rewrite /curveQuadraticIntegral Wr Wc !eqxx /=.
apply: (@accumulateE _ (fun c e i => seg_form W c e i d)) => i iN; exact: segQuadE.
Qed.

Lemma curveQuadDiagE (W : dvec F) d : dv_size W = D ->
  exists2 Q, curveQuadraticIntegralDiag s W d = Ok Q & forall c e,
    bil (C * D) (C * D) c Q e
      = fsum (numValidTimeSegments k n) (fun i => seg_form (fun r c => (r == c)%:R * W r) c e i d).
Proof.
move=> Wr; rewrite /curveQuadraticIntegralDiag Wr !eqxx /=.
apply: (@accumulateE _ (fun c e i => seg_form (fun r c => (r == c)%:R * W r) c e i d)) => i iN.
exact: segQuadDiagE.
Qed.

(* the segment form is an integral *)
Lemma seg_form_integral (Wt : nat -> nat -> F) (s1 s2 : bspline F) c e i d (P : {poly F}) :
  (i < numValidTimeSegments k n)%N ->
  (forall r, (r < D)%N -> forall j, (j < C)%N -> bs_coef s1 r j = c (j * D + r)%N) ->
  (forall r, (r < D)%N -> forall j, (j < C)%N -> bs_coef s2 r j = e (j * D + r)%N) ->
  bs_order s1 = k -> bs_order s2 = k -> bs_knots s1 = bs_knots s -> bs_knots s2 = bs_knots s ->
  bs_basis s1 = bs_basis s -> bs_basis s2 = bs_basis s -> bs_ncoef s1 = C -> bs_ncoef s2 = C ->
  P^`() = fsum D (fun r => fsum D (fun q => Wt r q *:
     ((spline_piece s1 r (k + i - 1))^`(d) * (spline_piece s2 q (k + i - 1))^`(d)))) ->
  seg_form Wt c e i d = P.[kn s (k + i)%N] - P.[kn s (k + i - 1)%N].
Proof.
move=> iN c1 c2 o1 o2 k1 k2 b1 b2 n1 n2 dP; have [ib i2 ki iN' iS] := segment_facts iN.
have hk := wf_order wfs.
have [lt|ge] := ltP (kn s (k + i - 1)%N) (kn s (k + i)%N); last first.
  have eq : kn s (k + i)%N - kn s (k + i - 1)%N = 0.
    apply/eqP; rewrite subr_eq0 eq_le ge /=; apply: (kn_mono wfs).
      by move: (i) (k); clear; lia.
    by rewrite -iS; move: iN' (wf_order wfs); clear; lia.
  have -> : kn s (k + i)%N = kn s (k + i - 1)%N by apply/eqP; rewrite -subr_eq0 eq.
  rewrite subrr /seg_form fsum0 // => r rD; rewrite fsum0 // => q qD.
  by rewrite eq bil0 ?mulr0 // => x y; rewrite mulr0.
rewrite /seg_form.
have [m em] : exists m, m = (k + i - 1)%N by eexists.
rewrite -em in iS iN' ki lt dP *; rewrite -iS in lt *.
have wf1 : wf s1.
  by case: wfs => *; split; rewrite ?o1 ?k1 ?n1 ?b1.
have wf2 : wf s2.
  by case: wfs => *; split; rewrite ?o2 ?k2 ?n2 ?b2.
have kn1 j : kn s1 j = kn s j by rewrite /kn k1.
have kn2 j : kn s2 j = kn s j by rewrite /kn k2.
set Dm : mat F := fun r c => if (c == r.+1) && (r.+1 < k)%N then
       r.+1%:R * (kn s m.+1 - kn s m)^-1 else 0.
have piece s' (cc : nat -> F) (wf' : wf s') (oe : bs_order s' = k) (ke : bs_knots s' = bs_knots s)
  (be : bs_basis s' = bs_basis s) (cE : forall r, (r < D)%N -> forall j, (j < C)%N ->
    bs_coef s' r j = cc (j * D + r)%N) r : (r < D)%N ->
  (spline_piece s' r m)^`(d) =
    lpoly s m (iter d (mulv k Dm) (vmono s (fun x => cc (i * D + x)%N) r i)).
  move=> rD; rewrite -(lpoly_derivn wfs _ d lt); last by [].
  congr (_^`(d)); rewrite (piece_mono wf') ?oe ?ke //; last by rewrite /kn ke.
  rewrite /lpoly; apply: eq_fsum => p pk; have -> : lin (kn s') m = lin (kn s) m.
    by rewrite /lin /kn ke.
  congr (_ *: _); rewrite /mono /vmono oe; apply: eq_fsum => j jk.
  rewrite mulrC /basis_at be; have -> : (m.+1 - k = i)%N by move: hk; rewrite em; clear; lia.
  congr (_ * _); rewrite cE //; first by rewrite mulnDl addnA.
  by move: jk i2 (wf_cols wfs); clear; lia.
have p1 := piece s1 c wf1 o1 k1 b1 c1; have p2 := piece s2 e wf2 o2 k2 b2 c2.
rewrite -/Dm.
pose R : {poly F} := fsum D (fun r => fsum D (fun q => Wt r q *: antip
   ((spline_piece s1 r m)^`(d) * (spline_piece s2 q m)^`(d)))).
have dR : R^`() = P^`().
  rewrite dP /R deriv_fsum; apply: eq_fsum => r _; rewrite deriv_fsum; apply: eq_fsum => q _.
  by rewrite derivZ antipK.
rewrite -(@deriv_same _ R P) // /R !fsumE !horner_sum -sumrB; apply: eq_bigr => r _.
rewrite !fsumE !horner_sum -sumrB; apply: eq_bigr => q _.
rewrite !hornerZ -mulrBr; congr (_ * _); apply: lpoly_integral => //.
by rewrite antipK p1 // p2.
Qed.
End Curve.

Section Final.
Variable F : realFieldType.
Variable wtol : F.
Variable s : bspline F.
Hypothesis wfs : wf s.
Local Notation k := (bs_order s).
Local Notation D := (bs_dim s).
Local Notation n := (size (bs_knots s)).
Local Notation C := (bs_ncoef s).

Lemma telescope (G : nat -> F) m : fsum m (fun i => G i.+1 - G i) = G m - G 0%N.
Proof. by elim: m => [|m IH]; rewrite ?subrr //= IH; ring. Qed.

Lemma forms_integral (Wt : nat -> nat -> F) (s1 s2 : bspline F) (c e : nat -> F) d G :
  setCoefficientVector s (DVec (D * C) c) = Ok s1 ->
  setCoefficientVector s (DVec (D * C) e) = Ok s2 ->
  antiderivative_of s (fun i => fsum D (fun r => fsum D (fun q => Wt r q *:
     ((spline_piece s1 r i)^`(d) * (spline_piece s2 q i)^`(d))))) G ->
  fsum (numValidTimeSegments k n) (fun i => seg_form s Wt c e i d) = G (tmax s) - G (tmin s).
Proof.
move=> e1 e2 HG; have hk := wf_order wfs; have hn := wf_size wfs.
have [s1' e1' [o1 k1 b1 [d1 n1] c1]] := @setCoefficientVectorE _ s (DVec (D * C) c) erefl.
have [s2' e2' [o2 k2 b2 [d2 n2] c2]] := @setCoefficientVectorE _ s (DVec (D * C) e) erefl.
move: e1' e2'; rewrite e1 e2 => -[ee1] [ee2]; subst s1' s2'.
pose H i := G (kn s (k + i - 1)%N).
have -> : G (tmax s) = H (numValidTimeSegments k n).
  rewrite /H /tmax /numValidTimeSegments; congr (G (kn s _)); move: hk hn; clear; lia.
have -> : G (tmin s) = H 0%N.
  rewrite /H /tmin; congr (G (kn s _)); move: hk; clear; lia.
rewrite -telescope; apply: eq_fsum => i iN.
have [ib i2 ki iN' iS] := segment_facts wfs iN.
have [P dP GP] := HG _ ki iN'.
rewrite (@seg_form_integral _ s wfs Wt s1 s2 c e i d P) //.
- rewrite /H; have -> : (k + i.+1 - 1 = k + i)%N by move: hk; clear; lia.
  have le : kn s (k + i - 1)%N <= kn s (k + i)%N.
    by apply: (kn_mono wfs); move: iN' hk; clear; lia.
  by rewrite !GP ?iS.
- by move=> r rD j jC; exact: c1.
- by move=> r rD j jC; exact: c2.
Qed.

Lemma bil_sym N (a b : nat -> F) (V : nat -> nat -> F) : (forall x y, V x y = V y x) ->
  bil N N a V b = bil N N b V a.
Proof.
move=> sV; rewrite /bil exchange_fsum; apply: eq_fsum => x _; apply: eq_fsum => y _.
by rewrite sV; ring.
Qed.

Lemma seg_form_sym (Wt : nat -> nat -> F) c e i d :
  (forall r q, (r < D)%N -> (q < D)%N -> Wt r q = Wt q r) ->
  seg_form s Wt c e i d = seg_form s Wt e c i d.
Proof.
move=> sW; rewrite /seg_form exchange_fsum; apply: eq_fsum => r rD; apply: eq_fsum => q qD.
by rewrite sW // bil_sym // => x y; rewrite addnC.
Qed.

Lemma seg_form_psd (Wt : nat -> nat -> F) c i d : (i < numValidTimeSegments k n)%N ->
  (forall v : nat -> F, 0 <= bil D D v Wt v) -> 0 <= seg_form s Wt c c i d.
Proof.
move=> iN psd; have [ib i2 ki iN' iS] := segment_facts wfs iN.
pose w := kn s (k + i)%N - kn s (k + i - 1)%N.
pose Dm : mat F := fun r c => if (c == r.+1) && (r.+1 < k)%N then r.+1%:R * w^-1 else 0.
have w0 : 0 <= w.
  by rewrite subr_ge0; apply: (kn_mono wfs); move: iN' (wf_order wfs); clear; lia.
pose a p r := iter d (mulv k Dm) (vmono s (fun x => c (i * D + x)%N) r i) p.
have -> : seg_form s Wt c c i d =
  w * fsum k (fun p => fsum k (fun q => bil D D (a p) Wt (a q) / 
     ((p%:R + 2%:R^-1) + (q%:R + 2%:R^-1)))).
  transitivity (fsum D (fun r => fsum D (fun q => fsum k (fun x => fsum k (fun y =>
     w * (a x r * Wt r q * a y q / (x%:R + 2%:R^-1 + (y%:R + 2%:R^-1)))))))).
    apply: eq_fsum => r _; apply: eq_fsum => q _; rewrite /bil fsum_mull.
    apply: eq_fsum => x _; rewrite fsum_mull; apply: eq_fsum => y _.
    transitivity (Wt r q * (a x r * ((x + y).+1%:R^-1 * w) * a y q)); first by [].
    have -> : (x + y).+1%:R = x%:R + 2%:R^-1 + (y%:R + 2%:R^-1) :> F.
      by rewrite -addn1 !natrD; field.
    by move: (a x r) (a y q) (_^-1) => a1 a2 z; ring.
  under eq_fsum => r _ do rewrite exchange_fsum.
  rewrite exchange_fsum fsum_mull; apply: eq_fsum => x _.
  under eq_fsum => r _ do rewrite exchange_fsum.
  rewrite exchange_fsum fsum_mull; apply: eq_fsum => y _.
  rewrite /bil fsum_mulr fsum_mull; apply: eq_fsum => r _.
  by rewrite fsum_mulr fsum_mull.
rewrite mulr_ge0 //; apply: (@cauchy_psd _ D Wt psd k (fun p => p%:R + 2%:R^-1) a) => p.
by rewrite ltr_paddl ?ler0n // invr_gt0 ltr0n.
Qed.

Lemma fsum_ge0 m (f : nat -> F) : (forall i, (i < m)%N -> 0 <= f i) -> 0 <= fsum m f.
Proof. by move=> h; rewrite fsumE sumr_ge0 // => i _; apply: h. Qed.

(* full matrix *)
Lemma curveQuad_all (W : dmat F) d : dm_rows W = D -> dm_cols W = D ->
  (forall r c, (r < D)%N -> (c < D)%N -> `|W r c - W c r| <= wtol) ->
  exists2 Q, curveQuadraticIntegral wtol s W d = Ok Q & 
  [/\ (forall c e s1 s2 G, setCoefficientVector s (DVec (D * C) c) = Ok s1 ->
        setCoefficientVector s (DVec (D * C) e) = Ok s2 ->
        antiderivative_of s (fun i => fsum D (fun r => fsum D (fun q => W r q *:
          ((spline_piece s1 r i)^`(d) * (spline_piece s2 q i)^`(d))))) G ->
        bil (C * D) (C * D) c Q e = G (tmax s) - G (tmin s)),
      ((forall r c, (r < D)%N -> (c < D)%N -> W r c = W c r) ->
        forall x y, (x < C * D)%N -> (y < C * D)%N -> Q x y = Q y x)
    & ((forall v : nat -> F, 0 <= bil D D v W v) -> forall c, 0 <= bil (C * D) (C * D) c Q c)].
Proof.
move=> Wr Wc Wt; have [Q hQ HQ] := curveQuadE wfs d Wr Wc Wt; exists Q => //; split.
- move=> c e s1 s2 G e1 e2 HG; rewrite HQ; exact: (forms_integral e1 e2 HG).
- move=> sW x y xN yN; rewrite -(bil_unit Q xN yN) -(bil_unit Q yN xN) !HQ.
  by apply: eq_fsum => i _; apply: seg_form_sym.
move=> psd c; rewrite HQ; apply: fsum_ge0 => i iN; exact: seg_form_psd.
Qed.

Lemma curveQuadDiag_full (w : nat -> F) d : 0 <= wtol ->
  exists Q Q', [/\ curveQuadraticIntegralDiag s (DVec D w) d = Ok Q,
    curveQuadraticIntegral wtol s (DMat D D (fun r c => (r == c)%:R * w r)) d = Ok Q'
    & forall x y, (x < C * D)%N -> (y < C * D)%N -> Q x y = Q' x y].
Proof.
move=> t0; have [Q hQ HQ] := @curveQuadDiagE _ s wfs (DVec D w) d erefl.
have [|Q' hQ' HQ'] := @curveQuadE _ wtol s wfs (DMat D D (fun r c => (r == c)%:R * w r)) d erefl erefl.
  move=> r c _ _ /=; rewrite [c == r]eq_sym; case: eqP => [->|_]; first by rewrite subrr normr0.
  by rewrite !mul0r subrr normr0.
exists Q, Q'; split=> // x y xN yN.
by rewrite -(bil_unit Q xN yN) -(bil_unit Q' xN yN) HQ HQ'.
Qed.

(* sparse assembly *)
Lemma add_block_cols (Q B : mat F) r0 c0 nr m e x y :
  add_block (add_block Q r0 c0 nr m B) r0 (c0 + m) nr e (fun r c => B r (m + c)%N) x y =
  add_block Q r0 c0 nr (m + e) B x y.
Proof.
rewrite /add_block addnA.
case: (leqP r0 x) => //= _; case: (ltnP x (r0 + nr)) => //= _.
case: (leqP (c0 + m) y) => h; rewrite /= ?andbF ?andbT.
  rewrite (leq_trans (leq_addr m c0) h) /=; case: ifP => // _.
  by congr (_ + B _ _); move: h; clear; lia.
case: (leqP c0 y) => //= _; rewrite (_ : y < c0 + m + e)%N //.
by apply: leq_trans h _; exact: leq_addr.
Qed.

Lemma add_block_rows (Q B : mat F) r0 c0 nc m e x y :
  add_block (add_block Q r0 c0 m nc B) (r0 + m) c0 e nc (fun r c => B (m + r)%N c) x y =
  add_block Q r0 c0 (m + e) nc B x y.
Proof.
rewrite /add_block addnA.
case: (leqP (r0 + m) x) => h; rewrite /= ?andbF ?andbT.
  rewrite (leq_trans (leq_addr m r0) h) /=; case: ifP => // _.
  by congr (_ + B _ _); move: h; clear; lia.
case: (leqP r0 x) => //= _; rewrite (_ : x < r0 + m + e)%N //=.
by apply: leq_trans h _; exact: leq_addr.
Qed.

Lemma eq_add_block (Q Q' B B' : mat F) r0 c0 n m x y : (forall x y, Q x y = Q' x y) ->
  (forall x y, B x y = B' x y) -> add_block Q r0 c0 n m B x y = add_block Q' r0 c0 n m B' x y.
Proof. by move=> h h'; rewrite /add_block h h'. Qed.

Lemma sparse_rowE (Q B : mat F) g i m x y :
  floop 0 m (fun j (Q : mat F) =>
     add_block Q ((g + i) * D) ((g + j) * D) D D (get_block B (i * D) (j * D))) Q x y
  = add_block Q ((g + i) * D) (g * D) D (m * D) (get_block B (i * D) 0) x y.
Proof.
elim: m x y => [|m IH] x y.
  by rewrite floop_nil // mul0n /add_block addn0 [X in if X then _ else _](_ : _ = false) //; 
    move: (_ * D)%N; clear; lia.
by rewrite floopSr // mulSnr -add_block_cols [((g + m) * D)%N]mulnDl; apply: eq_add_block.
Qed.

Lemma sparse_segE (Q B : mat F) g m x y :
  floop 0 m (fun i Q => floop 0 k (fun j (Q : mat F) =>
     add_block Q ((g + i) * D) ((g + j) * D) D D (get_block B (i * D) (j * D))) Q) Q x y
  = add_block Q (g * D) (g * D) (m * D) (k * D) B x y.
Proof.
elim: m x y => [|m IH] x y.
  by rewrite floop_nil // mul0n /add_block addn0 [X in if X then _ else _](_ : _ = false) //; 
    move: (g * D)%N (k * D)%N; clear; lia.
by rewrite floopSr // sparse_rowE mulSnr -add_block_rows [((g + m) * D)%N]mulnDl; apply: eq_add_block.
Qed.

Lemma sparse_dense (seg : nat -> outcome (mat F)) :
  orel (fun Q Q' : mat F => forall x y, Q x y = Q' x y)
    (curve_accumulate s seg) (sparse_accumulate s seg).
Proof.
rewrite /curve_accumulate /sparse_accumulate; elim: (numValidTimeSegments _ _) => [|m IH].
  by rewrite !oloop_nil.
rewrite !oloopSr //; move: IH; set o1 := oloop 0 m _ _; set o2 := oloop 0 m _ _.
case: o1 => [Q|e|]; case: o2 => [Q'|e'|] //= H.
case: (seg m) => [B|e|] //=; case: (m + k <= C)%N => //= x y.
by rewrite sparse_segE; apply: eq_add_block.
Qed.
End Final.
