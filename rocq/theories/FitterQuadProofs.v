(* The segment matrices of the fitter as integrals of squared second derivatives. *)
From mathcomp Require Import all_ssreflect all_algebra.
From mathcomp.algebra_tactics Require Import ring.
From mathcomp.zify Require Import zify.
From Verif Require Import Prelude CoxDeBoor CoxDeBoorProofs BSplineModel BSplineSpec
  BSplineProofs BSplineEvalProofs BSplineIntegralProofs BSplineQuadProofs LinSolve
  DMModel DMSpec DMProofs DMEvalProofs KnotModel FitterModel FitterSpec FitterAlg.
Set Implicit Arguments.
Unset Strict Implicit.
Unset Printing Implicit Defensive.
Import GRing.Theory Num.Theory Order.Theory.
Local Open Scope ring_scope.

Local Notation iter := ssrnat.iter.

Section Local.
Variable F : realFieldType.
Variables (k D : nat) (st : nat -> F) (i : nat).
Hypothesis k0 : (0 < k)%N.
Hypothesis pos : st i < st i.+1.
Let w := st i.+1 - st i.
Let w0 : 0 < w. Proof. by rewrite subr_gt0. Qed.

(* differentiation of coefficients in powers of the local coordinate *)
Definition dmat2 : mat F := fun r c =>
  if (c == r.+1) && (r.+1 < k)%N then r.+1%:R * w^-1 else 0.
Definition hil : mat F := fun a b => (a + b).+1%:R^-1 * w.
Definition locpoly (a : nat -> F) : {poly F} := fsum k (fun q => a q *: lin st i ^+ q).
(* monomial coefficients of component r for the local vertices x *)
Definition vm (B : mat F) (x : nat -> F) (r p : nat) : F :=
  fsum k (fun j => B p j * x (j * D + r)%N).
Definition qform (B : mat F) (lambda : F) (d : nat) (x y : nat -> F) : F :=
  fsum D (fun r => lambda * bil k k (iter d (mulv k dmat2) (vm B x r)) hil
                                    (iter d (mulv k dmat2) (vm B y r))).

Lemma loc_lin_deriv : (lin st i)^`() = (w^-1)%:P.
Proof. by rewrite /lin derivZ derivB derivX derivC subr0 alg_polyC. Qed.

Lemma locpoly_deriv (Dm : mat F) (a : nat -> F) :
  (forall r c, (r < k)%N -> Dm r c = dmat2 r c) ->
  (locpoly a)^`() = locpoly (mulv k Dm a).
Proof.
move=> HD; rewrite /locpoly deriv_fsum.
have -> : k = k.-1.+1 by move: k0; clear; lia.
rewrite fsum_recl fsumS /= derivZ derivC scaler0 add0r.
have -> : mulv k.-1.+1 Dm a k.-1 = 0.
  rewrite /mulv fsum0 // => x xk; rewrite HD /dmat2; last by move: k0; clear; lia.
  by rewrite (_ : (k.-1.+1 < k)%N = false) ?andbF ?mul0r //; move: k0; clear; lia.
rewrite scale0r addr0; apply: eq_fsum => q qk.
rewrite derivZ deriv_exp loc_lin_deriv mul_polyC -scalerMnr -scaler_nat !scalerA -pred_Sn.
congr (_ *: _); rewrite /mulv (fsum_pick (j := q.+1)); last first.
- move=> x xk ne; rewrite HD /dmat2; last by move: qk k0; clear; lia.
  by rewrite (negbTE ne) mul0r.
- by move: qk; clear; lia.
rewrite HD /dmat2; last by move: qk k0; clear; lia.
rewrite eqxx (_ : (q.+1 < k)%N = true) //=; last by move: qk k0; clear; lia.
by rewrite mulrAC.
Qed.

Lemma locpoly_derivn (a : nat -> F) d :
  (locpoly a)^`(d) = locpoly (iter d (mulv k dmat2) a).
Proof.
elim: d a => [|d IH] a; first by rewrite derivn0.
by rewrite derivnS IH iterS (@locpoly_deriv dmat2).
Qed.

Lemma locpoly_integral (a b : nat -> F) (P : {poly F}) :
  P^`() = locpoly a * locpoly b -> bil k k a hil b = P.[st i.+1] - P.[st i].
Proof.
move=> dP; have wn : w != 0 by rewrite gt_eqF.
pose R : {poly F} := fsum k (fun p => fsum k (fun q =>
   (a p * b q * ((p + q).+1%:R^-1 * w)) *: lin st i ^+ (p + q).+1)).
have dR : R^`() = locpoly a * locpoly b.
  rewrite /R /locpoly !fsumE raddf_sum mulr_suml; apply: eq_bigr => p _ /=.
  rewrite fsumE raddf_sum mulr_sumr; apply: eq_bigr => q _ /=.
  rewrite derivZ deriv_exp loc_lin_deriv mul_polyC -scalerMnr -scaler_nat !scalerA -pred_Sn.
  rewrite -scalerAl -scalerAr scalerA exprD; congr (_ *: _).
  have : (p + q).+1%:R != 0 :> F by rewrite pnatr_eq0.
  move: ((p + q).+1%:R) => z z0; field; by rewrite wn z0.
rewrite (@deriv_same _ P R) ?dP ?dR //.
have l1 : (lin st i).[st i.+1] = 1.
  by rewrite /lin !hornerZ !hornerD !hornerN !hornerX !hornerC -/w mulVf.
have l0 : (lin st i).[st i] = 0.
  by rewrite /lin !hornerZ !hornerD !hornerN !hornerX !hornerC subrr mulr0.
rewrite /R /bil !fsumE !horner_sum -sumrB; apply: eq_bigr => p _.
rewrite !fsumE !horner_sum -sumrB; apply: eq_bigr => q _.
rewrite !hornerZ !horner_exp l1 l0 expr1n expr0n mulr0 subr0 mulr1 /hil.
by rewrite mulrAC.
Qed.

(* the form is an integral *)
Lemma qform_integral (B : mat F) lambda d (x : nat -> F) (p : nat -> {poly F}) (P : {poly F}) :
  (forall r, (r < D)%N -> p r = locpoly (vm B x r)) ->
  P^`() = \sum_(r < D) (p r)^`(d) ^+ 2 ->
  qform B lambda d x x = lambda * (P.[st i.+1] - P.[st i]).
Proof.
move=> hp dP.
pose R : {poly F} := \sum_(r < D) antip ((p r)^`(d) ^+ 2).
have dR : R^`() = P^`().
  by rewrite dP /R raddf_sum; apply: eq_bigr => r _ /=; rewrite antipK.
rewrite -(@deriv_same _ R P) // /R !horner_sum -sumrB mulr_sumr /qform fsumE.
apply: eq_bigr => r _; congr (_ * _); apply: locpoly_integral.
by rewrite antipK -locpoly_derivn -hp // expr2.
Qed.

Lemma vm_lin (B : mat F) (x y : nat -> F) t r p :
  vm B (fun q => x q + t * y q) r p = vm B x r p + t * vm B y r p.
Proof. by rewrite /vm fsum_mull -fsumD; apply: eq_fsum => j _; ring. Qed.

Lemma iter_lin d (a b : nat -> F) t p :
  iter d (mulv k dmat2) (fun p => a p + t * b p) p
  = iter d (mulv k dmat2) a p + t * iter d (mulv k dmat2) b p.
Proof.
elim: d p => [//|d IH] p; rewrite !iterS.
rewrite (eq_mulv (A' := dmat2) (c' := fun q => iter d (mulv k dmat2) a q
  + t * iter d (mulv k dmat2) b q)) //.
move: (iter d _ a) (iter d _ b) => u v.
by rewrite /mulv fsum_mull -fsumD; apply: eq_fsum => q _; ring.
Qed.

Lemma eq_iter d (a b : nat -> F) : (forall p, a p = b p) ->
  forall p, iter d (mulv k dmat2) a p = iter d (mulv k dmat2) b p.
Proof.
move=> h; elim: d => [//|d IH] p; rewrite !iterS; apply: eq_fsum => q _; by rewrite IH.
Qed.

Lemma eq_qform (B : mat F) lambda d (x y x' y' : nat -> F) :
  (forall q, (q < k * D)%N -> x q = x' q) -> (forall q, (q < k * D)%N -> y q = y' q) ->
  qform B lambda d x y = qform B lambda d x' y'.
Proof.
move=> hx hy; apply: eq_fsum => r rD; congr (_ * _).
have h z z' : (forall q, (q < k * D)%N -> z q = z' q) -> forall p, vm B z r p = vm B z' r p.
  move=> hz p; apply: eq_fsum => j jk; rewrite hz //.
  by apply: (@leq_trans (j.+1 * D)%N); rewrite ?mulSnr ?ltn_add2l // -mulSnr leq_mul2r jk orbT.
by apply: eq_bil => [p _||p _] //; apply: eq_iter; apply: h.
Qed.

Lemma qform_linl (B : mat F) lambda d (x y z : nat -> F) t :
  qform B lambda d (fun q => x q + t * y q) z
  = qform B lambda d x z + t * qform B lambda d y z.
Proof.
rewrite /qform fsum_mull -fsumD; apply: eq_fsum => r _.
set a := iter d _ (vm B x r); set b := iter d _ (vm B y r); set c := iter d _ (vm B z r).
have -> : bil k k (iter d (mulv k dmat2) (vm B (fun q => x q + t * y q) r)) hil c
  = bil k k (fun p => a p + t * b p) hil c.
  apply: eq_bil => // p _; rewrite -iter_lin; apply: eq_iter => q; exact: vm_lin.
have -> : bil k k (fun p => a p + t * b p) hil c = bil k k a hil c + t * bil k k b hil c.
  rewrite /bil fsum_mull -fsumD; apply: eq_fsum => p _; rewrite fsum_mull -fsumD.
  by apply: eq_fsum => q _; ring.
ring.
Qed.

Lemma qform_sym (B : mat F) lambda d (x y : nat -> F) :
  qform B lambda d x y = qform B lambda d y x.
Proof.
apply: eq_fsum => r _; congr (_ * _); apply: bil_sym => a b; by rewrite /hil addnC.
Qed.

Lemma qform_psd (B : mat F) lambda d (x : nat -> F) : 0 <= lambda -> 0 <= qform B lambda d x x.
Proof.
move=> l0; apply: fsum_ge0 => r _; rewrite mulr_ge0 //.
set a := iter d _ _.
have -> : bil k k a hil a = w * fsum k (fun p => fsum k (fun q =>
    bil 1 1 (fun _ => a p) (fun _ _ => 1) (fun _ => a q)
     / ((p%:R + 2%:R^-1) + (q%:R + 2%:R^-1)))).
  rewrite /bil fsum_mull; apply: eq_fsum => p _; rewrite fsum_mull; apply: eq_fsum => q _.
  rewrite /= !add0r mulr1 /hil.
  have -> : (p + q).+1%:R = p%:R + 2%:R^-1 + (q%:R + 2%:R^-1) :> F.
    by rewrite -addn1 !natrD; field.
  by move: (_^-1) => z; ring.
rewrite mulr_ge0 //; first exact: ltW.
apply: (@cauchy_psd _ 1 (fun _ _ => 1) _ k (fun p => p%:R + 2%:R^-1) (fun p _ => a p)) => [v|p].
  by rewrite /bil /= !add0r mulr1 -expr2 sqr_ge0.
by rewrite ltr_paddl ?ler0n // invr_gt0 ltr0n.
Qed.
End Local.

Lemma eq_basis_poly (F : realFieldType) (t t' : nat -> F) i n j : t =1 t' ->
  basis_poly t i n j = basis_poly t' i n j.
Proof. by move=> h; elim: n j => [//|n IH] j; rewrite !basis_polyS !IH /omega !h. Qed.

Section Seg.
Variables (F : realFieldType) (T : realDomainType).
Variables (dbl : T -> F) (one : T).
Hypothesis et : exact_time dbl one.
Variables (k D : nat) (kps : seq (T * vec F)).
Hypothesis gd : good k kps.
Notation n := (size kps).
Notation cs := (canon dbl k kps).
Notation kk := (kp_knot kps).
Notation sc := (sec dbl one).
Notation st := (fun j => sc (kk j)).
Let k0 : (0 < k)%N. Proof. by case/and3P: gd. Qed.
Let sz : (2 * k <= n)%N. Proof. by case/and3P: gd. Qed.

Lemma ft_BijE s j (X : mat F) : (k <= s.+1)%N -> (s + k < n)%N ->
  exists2 B, ft_computeBij cs D s j X = Ok B &
  forall r p c, (r < D)%N -> (p < k)%N -> (c < D)%N ->
    B (r * k + p)%N c = if r == c then Mmat st k s p j else X (r * k + p)%N c.
Proof.
move=> s1 s2; have [M hM HM] := basisE et gd s1 s2.
rewrite /ft_computeBij hM /=; eexists; first by reflexivity.
move=> r p c rD pk cD.
have H : forall m, floop 0 m (fun d (B : mat F) =>
   set_block B (d * k) d k 1 (fun r _ => M r j)) X (r * k + p)%N c
   = if (r < m)%N && (r == c) then Mmat st k s p j else X (r * k + p)%N c.
  elim=> [|m IH]; first by rewrite floop_nil.
  rewrite floopSr // /set_block IH andbA grid_bounds // addn1 ltnS [(r < m.+1)%N]ltnS
    [(r <= m)%N]leq_eqVlt.
  have [->|ne] := eqVneq r m; last by [].
  by rewrite ltnn /= -eqn_leq; case: eqP => // _; rewrite addKn HM.
by rewrite H rD.
Qed.

Lemma ft_MiE s : (k <= s.+1)%N -> (s + k < n)%N ->
  exists2 M, ft_computeMi cs D s = Ok M &
  forall r p j c, (r < D)%N -> (p < k)%N -> (j < k)%N -> (c < D)%N ->
    M (r * k + p)%N (j * D + c)%N = (r == c)%:R * Mmat st k s p j.
Proof.
move=> s1 s2; rewrite /ft_computeMi.
have [||j0 M /andP[_ j0k] [HM HZ]|M -> [HM _]] := @oloop_ind (mat F) 0 k (fun j (M : mat F) =>
    do B <- ft_computeBij cs D s j (get_block M 0 (j * D)) ;
    Ok (set_block M 0 (j * D) (k * D) D B)) zerom
  (fun m M => (forall r p j c, (r < D)%N -> (p < k)%N -> (j < m)%N -> (c < D)%N ->
    M (r * k + p)%N (j * D + c)%N = (r == c)%:R * Mmat st k s p j) /\
    (forall x y, (m * D <= y)%N -> M x y = 0)); [by []|by []| |by exists M].
have [B -> HB] := ft_BijE j0 (get_block M 0 (j0 * D)) s1 s2.
rewrite /=; eexists; first by reflexivity.
split=> [r p j c rD pk|x y jy]; last first.
  rewrite /set_block [X in if X then _ else _](_ : _ = false).
    apply: HZ; apply: leq_trans jy; rewrite leq_mul2r leqnSn orbT //.
  by apply/negbTE; rewrite !negb_and -!leqNgt; apply/orP; right; apply/orP; right;
    apply/orP; right; rewrite -mulSnr.
rewrite ltnS leq_eqVlt => jj cD; rewrite /set_block leq0n add0n.
have -> /= : (r * k + p < k * D)%N.
  apply: (@leq_trans (r.+1 * k)%N); first by rewrite mulSnr ltn_add2l.
  by rewrite mulnC leq_mul2l rD orbT.
case/orP: jj => [/eqP ->|lt].
  rewrite leq_addr ltn_add2l cD /= addKn subn0 HB //; case: eqP => [_|_]; rewrite ?mul1r // mul0r.
  by rewrite /get_block HZ // leq_addr.
have -> /= : (j0 * D <= j * D + c)%N = false.
  apply/negbTE; rewrite -ltnNge; apply: (@leq_trans (j.+1 * D)%N).
    by rewrite mulSnr ltn_add2l.
  by rewrite leq_mul2r lt orbT.
exact: HM.
Qed.

Lemma ft_WVE (w : nat -> F) (V : mat F) r c p q :
  (r < D)%N -> (c < D)%N -> (p < k)%N -> (q < k)%N ->
  floop 0 D (fun r (WV : mat F) =>
       set_block WV (k * r) (k * r) k k (fun a b => w r * V a b)) zerom
    (r * k + p)%N (c * k + q)%N = (r == c)%:R * w r * V p q.
Proof.
move=> rD cD pk qk.
have H : forall m, floop 0 m (fun r (WV : mat F) =>
       set_block WV (k * r) (k * r) k k (fun a b => w r * V a b)) zerom
    (r * k + p)%N (c * k + q)%N = (r < m)%N%:R * ((r == c)%:R * w r * V p q).
  elim=> [|m IH]; first by rewrite floop_nil // mul0r.
  rewrite floopSr // ![(k * _)%N]mulnC set_block_grid // IH [in RHS]ltnS [in RHS]leq_eqVlt.
  case: (eqVneq r m) => [->|ne] /=; last by [].
  rewrite ltnn eq_sym; case: eqP => // _; rewrite ?mul1r ?mul0r //.
by rewrite H rD mul1r.
Qed.

Lemma bil_derive d (Dm V : mat F) a b :
  bil k k a (floop 0 d (fun _ V => mulm k (mulm k (trm Dm) V) Dm) V) b
  = bil k k (iter d (mulv k Dm) a) V (iter d (mulv k Dm) b).
Proof.
elim: d a b => [|d IH] a b; first by rewrite floop_nil.
by rewrite floopSr // bil_sandwich IH !iterSr.
Qed.

Lemma segmentE lambda s d : (k <= s.+1)%N -> (s + k < n)%N ->
  exists2 Q, ft_segmentQuadraticIntegralDiag dbl one cs D (fun _ => lambda) s d = Ok Q &
  forall x y, bil (k * D) (k * D) x Q y = qform k D st s (Mmat st k s) lambda d x y.
Proof.
move=> s1 s2; rewrite /ft_segmentQuadraticIntegralDiag size_canon.
have sn : (s < n)%N by move: s2; clear; lia.
have sn1 : (s.+1 < n)%N by move: s2 k0; clear; lia.
rewrite sn [X in need X ; _]/= (minTimeE dbl gd) (maxTimeE dbl gd) (canon_knot_at dbl) //.
rewrite [obind (Ok _) _]/= (kk_le gd) //; last by move: s1; clear; lia.
rewrite (kk_lt gd); [|by move: s2; clear; lia|by move: k0 sz; clear; lia].
rewrite /dm_computeDii /dm_computeVi (segLenE dbl gd sn1).
have pos : kk s < kk s.+1 by apply: (kk_lt gd).
have dt0 : 0 < kk s.+1 - kk s by rewrite subr_gt0.
rewrite /= (gt_eqF dt0) dt0 /=.
have [M hM HM] := ft_MiE s1 s2; rewrite hM /=; eexists; first by reflexivity.
set Dm := floop 0 (k - 1) _ _.
have HD r c : (r < k)%N -> Dm r c = dmat2 k st s r c.
  move=> rk; rewrite /Dm /dmat2.
  have rdE : divideDurations dbl one (kk s.+1 - kk s) = (st s.+1 - st s)^-1.
    by rewrite /divideDurations (sec_sub et) invf_div.
  rewrite rdE; set rd := (_)^-1.
  have H : forall m, floop 0 m (fun i (D : mat F) =>
        fun r c => if (r == i) && (c == i.+1) then i.+1%:R * rd else D r c) zerom r c =
     if (c == r.+1) && (r < m)%N then r.+1%:R * rd else 0.
    elim=> [|m IH]; first by rewrite floop_nil // andbF.
    rewrite floopSr // IH [in RHS]ltnS [in RHS]leq_eqVlt.
    by case: (eqVneq r m) => [->|ne] /=; rewrite ?andbT ?ltnn ?andbF.
  rewrite H; congr (if _ && _ then _ else _); move: rk; clear; lia.
move=> x y; rewrite bil_sandwich [X in bil X X]mulnC /bil fsum_nested.
rewrite /qform; apply: eq_fsum => r rD.
under eq_fsum => p _ do rewrite fsum_nested.
set V := floop 0 d _ _.
have mv z p : (p < k)%N -> mulv (k * D) M z (r * k + p)%N = vm k D (Mmat st k s) z r p.
  move=> pk; rewrite /mulv fsum_nested; apply: eq_fsum => j jk.
  rewrite (fsum_pick (j := r)) //; first by rewrite HM // eqxx mul1r.
  by move=> q qD ne; rewrite HM // eq_sym (negbTE ne) !mul0r.
transitivity (fsum k (fun p => fsum k (fun q =>
   vm k D (Mmat st k s) x r p * (lambda * V p q) * vm k D (Mmat st k s) y r q))).
  apply: eq_fsum => p pk; rewrite (fsum_pick (j := r)) //.
    by apply: eq_fsum => q qk; rewrite ft_WVE // eqxx mul1r !mv.
  by move=> c cD ne; rewrite fsum0 // => q qk; rewrite ft_WVE // eq_sym (negbTE ne) !mul0r mulr0 mul0r.
transitivity (lambda * bil k k (vm k D (Mmat st k s) x r) V (vm k D (Mmat st k s) y r)).
  rewrite /bil fsum_mull; apply: eq_fsum => p _; rewrite fsum_mull; apply: eq_fsum => q _; ring.
congr (_ * _); rewrite /V bil_derive.
have itE e z p : (p < k)%N -> iter e (mulv k Dm) z p = iter e (mulv k (dmat2 k st s)) z p.
  elim: e p => [//|m IH] p pk; rewrite !iterS; apply: eq_mulv => q qk; [exact: HD|exact: IH].
apply: eq_bil => [p pk|p q _ _|p pk]; [exact: itE| |exact: itE].
by rewrite /hil /getDurationAsDouble /divideDurations (sec_sub et).
Qed.

(* the piece of the curve in local coordinates *)
Lemma piece_loc (kps' : seq (T * vec F)) r s : map fst kps' = map fst kps ->
  (k <= s.+1)%N -> (s + k < n)%N -> (r < D)%N ->
  dm_piece dbl one k kps' r s = locpoly k st s (vm k D (Mmat st k s)
    (fun q => (nth kp0 kps' (s.+1 - k + q %/ D)).2 (q %% D)%N) r).
Proof.
move=> ke s1 s2 rD; have ns : size kps' = n by rewrite -(size_map fst) ke size_map.
have kE j : (j < n)%N -> kp_knot kps' j = kk j.
  by move=> jn; rewrite /kp_knot -!(nth_map kp0 0 fst) ?ns // ke.
have gd' : good k kps' by move: gd; rewrite /good /increasing ke ns.
have D0 : (0 < D)%N by apply: leq_trans rD.
rewrite /dm_piece curve_piece_local; [|rewrite ?ns; move: s1 s2 k0; clear; lia..].
have kS : (k.-1.+1 = k)%N by move: k0; clear; lia.
have e2 : (s - k.-1 = s.+1 - k)%N by move: k0; clear; lia.
rewrite kS /locpoly.
rewrite [RHS](eq_fsum (g := fun q => fsum k (fun c => (nth kp0 kps' (s.+1 - k + c)).2 r *:
    (Mmat st k s q c *: lin st s ^+ q)))); last first.
  move=> q _; rewrite /vm !fsumE scaler_suml; apply: eq_bigr => c _.
  by rewrite scalerA mulrC divnMDl // divn_small // addn0 modnMDl modn_small.
rewrite exchange_fsum; apply: eq_fsum => c ck; rewrite -fsum_scale e2; congr (_ *: _).
have pos : st s < st s.+1 by rewrite (sec_lt et); apply: (kk_lt gd) => //; move: s2 k0; clear; lia.
have mono a b : (a <= b)%N -> (b < n)%N -> st a <= st b.
  by move=> ab bn; rewrite (sec_le et); apply: (kk_le gd).
have -> : basis_poly (fun j => sc (kp_knot kps' j)) s k.-1 (s.+1 - k + c)
        = basis_poly st s k.-1 (s.+1 - k + c).
  apply: eq_basis_poly => j; congr (sc _); have [jn|nj] := ltnP j n; first exact: kE.
  by rewrite /kp_knot !nth_default ?ns.
by rewrite -e2 -(Mmat_poly (N := n) mono pos) ?kS //; move: ck s1 s2 k0; clear; lia.
Qed.
End Seg.
