(* Linear systems: exact solvers exist, injective systems, normal equations. *)
From mathcomp Require Import all_ssreflect all_algebra.
From mathcomp.algebra_tactics Require Import ring.
From mathcomp.zify Require Import zify.
From Verif Require Import Prelude BSplineModel BSplineSpec BSplineQuadProofs.
Set Implicit Arguments.
Unset Strict Implicit.
Unset Printing Implicit Defensive.
Import GRing.Theory Num.Theory Order.Theory.
Local Open Scope ring_scope.

Section Mx.
Variable F : realFieldType.
Implicit Types (A Q : mat F) (b c e : vec F).

Definition tomx n m A : 'M[F]_(n, m) := \matrix_(i, j) A i j.
Definition tocv n c : 'cV[F]_n := \col_i c i.
Definition ofcv n (v : 'cV[F]_n) : vec F := fun i => if insub i is Some j then v j 0 else 0.

Lemma ofcvE n (v : 'cV[F]_n) i (h : (i < n)%N) : ofcv v i = v (Ordinal h) 0.
Proof. by rewrite /ofcv insubT. Qed.

Lemma tocvK n (v : 'cV[F]_n) : tocv n (ofcv v) = v.
Proof.
apply/colP => i; rewrite mxE (ofcvE v (ltn_ord i)); congr (v _ _); exact: val_inj.
Qed.

Lemma mulv_mx n m A c i (h : (i < n)%N) : mulv m A c i = (tomx n m A *m tocv m c) (Ordinal h) 0.
Proof. by rewrite mxE /mulv fsumE; apply: eq_bigr => j _; rewrite !mxE. Qed.

Lemma mulv_eq n m A c b : (forall i, (i < n)%N -> mulv m A c i = b i) <->
  tomx n m A *m tocv m c = tocv n b.
Proof.
split=> [H|H i h]; last by rewrite (mulv_mx _ _ _ h) H mxE.
apply/colP => i; rewrite [RHS]mxE -H // (mulv_mx _ _ _ (ltn_ord i)).
by congr ((_ *m _) _ _); apply: val_inj.
Qed.

Lemma eq_mulv m A A' c c' i : (forall j, (j < m)%N -> A i j = A' i j) ->
  (forall j, (j < m)%N -> c j = c' j) -> mulv m A c i = mulv m A' c' i.
Proof. by move=> hA hc; apply: eq_fsum => j jm; rewrite hA // hc. Qed.

Lemma mulvB m A c c' i : mulv m A (fun j => c j - c' j) i = mulv m A c i - mulv m A c' i.
Proof. by rewrite /mulv -fsumB; apply: eq_fsum => j _; rewrite mulrBr. Qed.

Lemma mulv_assoc n m A A' c i : mulv m (mulm n A A') c i = mulv n A (mulv m A' c) i.
Proof.
rewrite /mulv /mulm; under eq_fsum => x _ do rewrite fsum_mulr.
rewrite exchange_fsum; apply: eq_fsum => y _; rewrite fsum_mull.
by apply: eq_fsum => x _; rewrite mulrA.
Qed.

(* an exact solver exists *)
Definition pinv_solve n A b : vec F :=
  ofcv ((tocv n b)^T *m pinvmx (tomx n n A)^T)^T.

Lemma pinv_exact : exact_solver pinv_solve.
Proof.
move=> n A b [x /mulv_eq H]; apply/mulv_eq; rewrite /pinv_solve tocvK.
apply: trmx_inj; rewrite trmx_mul trmxK mulmxKpV //.
by rewrite -H trmx_mul submxMl.
Qed.

(* injective square systems have a solution *)
Lemma injective_solvable n A b :
  (forall x : vec F, (forall i, (i < n)%N -> mulv n A x i = 0) -> forall i, (i < n)%N -> x i = 0) ->
  exists x : vec F, forall i, (i < n)%N -> mulv n A x i = b i.
Proof.
move=> inj; have U : row_free (tomx n n A)^T.
  apply: inj_row_free => v vA; apply: trmx_inj; rewrite trmx0 -[v^T]tocvK.
  apply/colP => i; rewrite !mxE; apply: (inj (ofcv v^T)) => //.
  apply/mulv_eq; rewrite tocvK; apply: trmx_inj; rewrite trmx_mul trmxK vA.
  by apply/rowP => j; rewrite !mxE.
exists (ofcv (invmx (tomx n n A) *m tocv n b)); apply/mulv_eq; rewrite tocvK mulKVmx //.
by rewrite -unitmx_tr -row_free_unit.
Qed.

(* ||A c - b||^2 + c^T Q c *)
Definition qcost n N A b Q c : F :=
  fsum n (fun i => (mulv N A c i - b i) ^+ 2) + bil N N c Q c.

Lemma qcost_diff n N A b Q c e :
  (forall x y, (x < N)%N -> (y < N)%N -> Q x y = Q y x) ->
  let h := fun i : nat => e i - c i in
  qcost n N A b Q e - qcost n N A b Q c
  = 2%:R * fsum N (fun y => h y * (mulv N (fun r q => mulm n (trm A) A r q + Q r q) c y
                                   - mulv n (trm A) b y))
    + (fsum n (fun i => mulv N A h i ^+ 2) + bil N N h Q h).
Proof.
move=> sQ h.
have e1 : fsum n (fun i => (mulv N A e i - b i) ^+ 2) - fsum n (fun i => (mulv N A c i - b i) ^+ 2)
  = 2%:R * fsum n (fun i => mulv N A h i * (mulv N A c i - b i)) + fsum n (fun i => mulv N A h i ^+ 2).
  rewrite fsum_mull -fsumB -fsumD; apply: eq_fsum => i _.
  by rewrite /h mulvB; ring.
have e2 : bil N N e Q e - bil N N c Q c = 2%:R * fsum N (fun y => h y * mulv N Q c y) + bil N N h Q h.
  have -> : fsum N (fun y => h y * mulv N Q c y) = bil N N h Q c.
    by apply: eq_fsum => y _; rewrite fsum_mull; apply: eq_fsum => z _; rewrite mulrA.
  have -> : 2%:R * bil N N h Q c = bil N N h Q c + bil N N c Q h.
    rewrite mulr_natl mulr2n; congr (_ + _).
    rewrite /bil exchange_fsum; apply: eq_fsum => y yN; apply: eq_fsum => z zN.
    by rewrite sQ //; ring.
  rewrite /bil -!fsumD -fsumB; apply: eq_fsum => y _.
  by rewrite -!fsumD -fsumB; apply: eq_fsum => z _; rewrite /h; ring.
have e3 : fsum n (fun i => mulv N A h i * (mulv N A c i - b i)) =
  fsum N (fun y => h y * mulv n (trm A) (fun i => mulv N A c i - b i) y).
  rewrite /mulv; under eq_fsum => i _ do rewrite fsum_mulr.
  rewrite exchange_fsum; apply: eq_fsum => y _; rewrite fsum_mull.
  by apply: eq_fsum => i _; rewrite /trm; ring.
have e4 : fsum N (fun y => h y * (mulv N (fun r q => mulm n (trm A) A r q + Q r q) c y
                                   - mulv n (trm A) b y))
  = fsum N (fun y => h y * mulv n (trm A) (fun i => mulv N A c i - b i) y)
    + fsum N (fun y => h y * mulv N Q c y).
  rewrite -fsumD; apply: eq_fsum => y _; rewrite mulvB -mulv_assoc -mulrDr; congr (_ * _).
  rewrite {1}/mulv; under eq_fsum => x _ do rewrite mulrDl.
  by rewrite fsumD /mulv; ring.
rewrite e4 /qcost opprD addrACA e1 e2 e3; ring.
Qed.

Lemma sq_ge0 n (f : nat -> F) : 0 <= fsum n (fun i => f i ^+ 2).
Proof. by apply: fsum_ge0 => i _; apply: sqr_ge0. Qed.

(* solutions of the normal equations minimise the cost *)
Lemma normal_min n N A b Q c e :
  (forall x y, (x < N)%N -> (y < N)%N -> Q x y = Q y x) ->
  (forall v, 0 <= bil N N v Q v) ->
  (forall i, (i < N)%N -> mulv N (fun r q => mulm n (trm A) A r q + Q r q) c i
     = mulv n (trm A) b i) ->
  qcost n N A b Q c <= qcost n N A b Q e.
Proof.
move=> sQ psd H; rewrite -subr_ge0 qcost_diff // fsum0 ?mulr0 ?add0r; last first.
  by move=> i iN; rewrite H // subrr mulr0.
by rewrite addr_ge0 ?sq_ge0.
Qed.

Lemma normal_solvable n N A b Q :
  (forall x y, (x < N)%N -> (y < N)%N -> Q x y = Q y x) ->
  (forall v, 0 <= bil N N v Q v) ->
  exists x : vec F, forall i, (i < N)%N -> mulv N (fun r q => mulm n (trm A) A r q + Q r q) x i
     = mulv n (trm A) b i.
Proof.
move=> sQ psd; set M : mat F := fun r q => _; set y := mulv n _ _.
have sM : (tomx N N M)^T = tomx N N M.
  apply/matrixP => i j; rewrite !mxE /M sQ //; congr (_ + _).
  by apply: eq_fsum => x _; rewrite /trm mulrC.
have sub : ((tocv N y)^T <= (tomx N N M)^T)%MS.
  rewrite submxE sM; set K := cokermx _; have KE : tomx N N M *m K = 0 by exact: mulmx_coker.
  move: K KE => K KE; apply/eqP/rowP => j; rewrite !mxE.
  pose v := ofcv (col j K).
  have Mv i : (i < N)%N -> mulv N M v i = 0.
    have : tomx N N M *m tocv N v = tocv N (fun _ => 0).
      rewrite tocvK colE mulmxA KE mul0mx; apply/colP => x; by rewrite !mxE.
    by move/mulv_eq; apply.
  have q0 : fsum n (fun i => mulv N A v i ^+ 2) + bil N N v Q v = 0.
    transitivity (fsum N (fun i => v i * mulv N M v i)); last first.
      by rewrite fsum0 // => i iN; rewrite Mv // mulr0.
    have -> : fsum n (fun i => mulv N A v i ^+ 2) = bil N N v (mulm n (trm A) A) v.
      rewrite bil_mulm_tr /bil; apply: eq_fsum => i _.
      by rewrite -[fsum N (fun y => A i y * v y)]/(mulv N A v i) expr2 {2}/mulv fsum_mull;
        apply: eq_fsum => x _; rewrite mulrA.
    rewrite /bil -fsumD; apply: eq_fsum => i _; rewrite -fsumD fsum_mull.
    by apply: eq_fsum => x _; rewrite /M; ring.
  have Av i : (i < n)%N -> mulv N A v i = 0.
    have s0 : fsum n (fun i => mulv N A v i ^+ 2) = 0.
      apply/eqP; rewrite eq_le sq_ge0 andbT -q0 ler_addl; exact: psd.
    move: s0; rewrite fsumE => /eqP; rewrite psumr_eq0 => [/allP h|i' _]; last exact: sqr_ge0.
    move=> lt; have := h (Ordinal lt) (mem_index_enum _).
    by rewrite /= sqrf_eq0 => /eqP.
  transitivity (fsum N (fun i => y i * v i)).
    rewrite fsumE; apply: eq_bigr => i _; rewrite !mxE; congr (_ * _).
    by rewrite /v (ofcvE _ (ltn_ord i)) mxE (_ : Ordinal (ltn_ord i) = i) //; apply: val_inj.
  rewrite /y /mulv; under eq_fsum => i _ do rewrite fsum_mulr.
  rewrite exchange_fsum fsum0 // => x xn; rewrite -[RHS](mulr0 (b x)) -(Av x xn) fsum_mull.
  by apply: eq_fsum => i _; rewrite /trm; ring.
exists (ofcv ((tocv N y)^T *m pinvmx (tomx N N M)^T)^T); apply/mulv_eq; rewrite tocvK.
by apply: trmx_inj; rewrite trmx_mul trmxK mulmxKpV.
Qed.

(* a system with more rows than columns: injectivity passes to A^T A *)
Lemma normal_injective n N A :
  (forall x : vec F, (forall i, (i < n)%N -> mulv N A x i = 0) -> forall i, (i < N)%N -> x i = 0) ->
  forall x : vec F, (forall i, (i < N)%N -> mulv N (mulm n (trm A) A) x i = 0) ->
  forall i, (i < N)%N -> x i = 0.
Proof.
move=> inj x H; apply: inj.
have s0 : fsum n (fun i => mulv N A x i ^+ 2) = 0.
  transitivity (fsum N (fun y => x y * mulv N (mulm n (trm A) A) x y)); last first.
    by rewrite fsum0 // => y yN; rewrite H // mulr0.
  under [in RHS]eq_fsum => y _ do rewrite mulv_assoc.
  rewrite /mulv; under [in RHS]eq_fsum => y _ do rewrite fsum_mull.
  rewrite exchange_fsum; apply: eq_fsum => i _; rewrite expr2 fsum_mulr.
  by apply: eq_fsum => y _; rewrite /trm; ring.
move: s0; rewrite fsumE => /eqP; rewrite psumr_eq0 => [/allP h|i' _]; last exact: sqr_ge0.
move=> i lt; have := h (Ordinal lt) (mem_index_enum _).
by rewrite /= sqrf_eq0 => /eqP.
Qed.
End Mx.
