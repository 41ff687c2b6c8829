(* Quadratic problems with a linear term; windows of sums. *)
From mathcomp Require Import all_ssreflect all_algebra.
From mathcomp.algebra_tactics Require Import ring.
From mathcomp.zify Require Import zify.
From Verif Require Import Prelude BSplineModel BSplineSpec BSplineQuadProofs LinSolve.
Set Implicit Arguments.
Unset Strict Implicit.
Unset Printing Implicit Defensive.
Import GRing.Theory Num.Theory Order.Theory.
Local Open Scope ring_scope.

Section Alg.
Variable F : realFieldType.
Implicit Types (A Q : mat F) (b c e g : vec F).

Lemma quad_min n N A b Q g c e :
  (forall x y, (x < N)%N -> (y < N)%N -> Q x y = Q y x) ->
  (forall v, 0 <= bil N N v Q v) ->
  (forall i, (i < N)%N -> mulv N (fun r q => mulm n (trm A) A r q + Q r q) c i
     = mulv n (trm A) b i - g i) ->
  qcost n N A b Q c + 2%:R * fsum N (fun i => c i * g i)
  <= qcost n N A b Q e + 2%:R * fsum N (fun i => e i * g i).
Proof.
move=> sQ psd H; rewrite -subr_ge0 opprD addrACA qcost_diff //.
set u := fsum n _ + _; have u0 : 0 <= u by rewrite addr_ge0 ?sq_ge0.
have -> : fsum N (fun y => (e y - c y) * (mulv N (fun r q => mulm n (trm A) A r q + Q r q) c y
                                   - mulv n (trm A) b y))
  = - (fsum N (fun i => e i * g i) - fsum N (fun i => c i * g i)).
  by rewrite -fsumB -fsumN; apply: eq_fsum => i iN; rewrite H //; ring.
by set x := fsum N _; set y := fsum N _; have -> : 2%:R * - (x - y) + u + (2%:R * x - 2%:R * y) = u by ring.
Qed.

(* a symmetric system is solvable if the right-hand side is orthogonal to the kernel *)
Lemma sym_solvable N (M : mat F) (y : vec F) :
  (forall i j, (i < N)%N -> (j < N)%N -> M i j = M j i) ->
  (forall v : vec F, (forall i, (i < N)%N -> mulv N M v i = 0) -> fsum N (fun i => v i * y i) = 0) ->
  exists x : vec F, forall i, (i < N)%N -> mulv N M x i = y i.
Proof.
move=> sy ker.
have sM : (tomx N N M)^T = tomx N N M by apply/matrixP => i j; rewrite !mxE sy.
have sub : ((tocv N y)^T <= (tomx N N M)^T)%MS.
  rewrite submxE sM; set K := cokermx _; have KE : tomx N N M *m K = 0 by exact: mulmx_coker.
  move: K KE => K KE; apply/eqP/rowP => j; rewrite !mxE.
  pose v := ofcv (col j K).
  have Mv i : (i < N)%N -> mulv N M v i = 0.
    have : tomx N N M *m tocv N v = tocv N (fun _ => 0).
      rewrite tocvK colE mulmxA KE mul0mx; apply/colP => x; by rewrite !mxE.
    by move/mulv_eq; apply.
  rewrite -[RHS](ker v Mv) fsumE; apply: eq_bigr => i _; rewrite !mxE mulrC; congr (_ * _).
  by rewrite /v (ofcvE _ (ltn_ord i)) mxE (_ : Ordinal (ltn_ord i) = i) //; apply: val_inj.
exists (ofcv ((tocv N y)^T *m pinvmx (tomx N N M)^T)^T); apply/mulv_eq; rewrite tocvK.
by apply: trmx_inj; rewrite trmx_mul trmxK mulmxKpV.
Qed.

Lemma quad_solvable n N A b Q g :
  (forall x y, (x < N)%N -> (y < N)%N -> Q x y = Q y x) ->
  (forall v, 0 <= bil N N v Q v) ->
  (forall v, bil N N v Q v = 0 -> fsum N (fun i => v i * g i) = 0) ->
  exists x : vec F, forall i, (i < N)%N -> mulv N (fun r q => mulm n (trm A) A r q + Q r q) x i
     = mulv n (trm A) b i - g i.
Proof.
move=> sQ psd gQ; apply: sym_solvable => [i j iN jN|v Mv].
  by rewrite sQ //; congr (_ + _); apply: eq_fsum => x _; rewrite /trm mulrC.
have e1 : fsum n (fun i => mulv N A v i ^+ 2) + bil N N v Q v = 0.
  transitivity (fsum N (fun i => v i * mulv N (fun r q => mulm n (trm A) A r q + Q r q) v i)); last first.
    by rewrite fsum0 // => i iN; rewrite Mv // mulr0.
  have -> : fsum n (fun i => mulv N A v i ^+ 2) = bil N N v (mulm n (trm A) A) v.
    rewrite bil_mulm_tr /bil; apply: eq_fsum => i _.
    by rewrite -[fsum N (fun y => A i y * v y)]/(mulv N A v i) expr2 {2}/mulv fsum_mull;
      apply: eq_fsum => x _; rewrite mulrA.
  rewrite /bil -fsumD; apply: eq_fsum => i _; rewrite -fsumD fsum_mull.
  by apply: eq_fsum => x _; ring.
have a0 : 0 <= fsum n (fun i => mulv N A v i ^+ 2) by exact: sq_ge0.
move/eqP: e1; rewrite paddr_eq0 // => /andP[/eqP A0 /eqP q0].
under eq_fsum => i _ do rewrite mulrBr.
rewrite fsumB gQ // subr0.
have Av i : (i < n)%N -> mulv N A v i = 0.
  move=> hi; apply/eqP; rewrite -sqrf_eq0; apply/eqP.
  move: A0; rewrite fsumE => /eqP; rewrite psumr_eq0 => [/allP h|j _]; last exact: sqr_ge0.
  by have /eqP := h (Ordinal hi) (mem_index_enum _).
rewrite /mulv; under eq_fsum => i _ do rewrite fsum_mull.
rewrite exchange_fsum fsum0 // => x xn.
transitivity (b x * mulv N A v x); last by rewrite Av // mulr0.
by rewrite /mulv fsum_mull; apply: eq_fsum => i _; rewrite /trm; ring.
Qed.

(* a symmetric semidefinite form vanishes on u x _ if it vanishes on u x u *)
Lemma psd_null (X : Type) (add : X -> X -> X) (sc : F -> X -> X) (B : X -> X -> F) u y :
  (forall x, 0 <= B x x) ->
  (forall t, B (add y (sc t u)) (add y (sc t u)) = B y y + 2%:R * t * B u y + t ^+ 2 * B u u) ->
  B u u = 0 -> B u y = 0.
Proof.
move=> psd ex u0; apply/eqP; apply/negPn/negP => ne.
have := psd (add y (sc (- (B y y + 1) / (2%:R * B u y)) u)); rewrite ex u0 mulr0 addr0.
have -> : B y y + 2%:R * (- (B y y + 1) / (2%:R * B u y)) * B u y = -1.
  by field; rewrite ne.
by rewrite oppr_ge0 ler10.
Qed.

(* sums over windows *)
Lemma fsum_free (V : zmodType) n f N (phi : nat -> V) : (f + N <= n)%N ->
  fsum N (fun u => phi (f + u)%N) = fsum n (fun v => if (f <= v < f + N)%N then phi v else 0).
Proof.
move=> le; rewrite [RHS](fsum_window le).
  by apply: eq_fsum => i iN; rewrite leq_addr ltn_add2l iN.
by move=> i _ /negbTE ->.
Qed.

Lemma fsum_two (V : zmodType) n f N a k (phi : nat -> V) : (f + N <= n)%N -> (a + k <= n)%N ->
  fsum N (fun u => if (a <= f + u < a + k)%N then phi (f + u)%N else 0) =
  fsum k (fun j => if (f <= a + j < f + N)%N then phi (a + j)%N else 0).
Proof.
move=> h1 h2.
rewrite (fsum_free (fun v => if (a <= v < a + k)%N then phi v else 0) h1).
rewrite (fsum_free (fun v => if (f <= v < f + N)%N then phi v else 0) h2).
by apply: eq_fsum => v _; case: ifP; case: ifP.
Qed.
End Alg.
