(* Common definitions: outcomes of API calls, finite sums, for-loops.          *)
From mathcomp Require Import all_ssreflect all_algebra.
Set Implicit Arguments.
Unset Strict Implicit.
Unset Printing Implicit Defensive.
Import GRing.Theory Num.Theory.

(* Exceptions that the code base throws (SM_DEFINE_EXCEPTION in
   bsplines/include/bsplines/BSpline.hpp:81, DiffManifoldBSpline.hpp and
   std::runtime_error).  The message text is not modelled. *)
Inductive exn := ExnSpline | ExnRuntime.

(* Result of one API call: a value, an exception, or undefined behaviour
   (out-of-range access or violated precondition of a library call). *)
Inductive outcome (A : Type) :=
  | Ok of A
  | Throw of exn
  | UB.
Arguments Throw {A} _.
Arguments UB {A}.

Definition obind A B (x : outcome A) (f : A -> outcome B) : outcome B :=
  match x with Ok a => f a | Throw e => Throw e | UB => UB end.

Notation "'do' x <- e ; f" := (obind e (fun x => f))
  (at level 200, x name, e at level 100, f at level 200).
Notation "'do' ' p <- e ; f" := (obind e (fun p => f))
  (at level 200, p strict pattern, e at level 100, f at level 200).

(* SM_ASSERT_xx(Exception, cond): throw when the condition does not hold. *)
Definition sm_assert A (c : bool) (e : exn) (k : outcome A) : outcome A :=
  if c then k else Throw e.

(* An access whose precondition is [c]; violating it is undefined behaviour. *)
Definition ub_unless A (c : bool) (k : outcome A) : outcome A :=
  if c then k else UB.

Notation "'assert' c 'raise' e ; k" := (sm_assert c e k)
  (at level 200, c at level 100, e at level 100, k at level 200).
Notation "'need' c ; k" := (ub_unless c k)
  (at level 200, c at level 100, k at level 200).

Definition is_ok A (x : outcome A) := if x is Ok _ then true else false.

(* for(int i = lo; i < hi; i++) st = body(i, st) *)
Definition floop (S : Type) (lo hi : nat) (body : nat -> S -> S) (st : S) : S :=
  foldl (fun s i => body i s) st (iota lo (hi - lo)).

Lemma floop_nil S lo hi body (st : S) : hi <= lo -> floop lo hi body st = st.
Proof. by rewrite /floop -subn_eq0 => /eqP ->. Qed.

Lemma floopSr S lo hi body (st : S) : lo <= hi ->
  floop lo hi.+1 body st = body hi (floop lo hi body st).
Proof.
move=> le; rewrite /floop subSn // -addn1 iotaD foldl_cat /=.
by rewrite subnKC.
Qed.

Lemma floop_ind S lo hi body (st : S) (I : nat -> S -> Prop) : lo <= hi ->
  I lo st -> (forall i s, lo <= i < hi -> I i s -> I i.+1 (body i s)) ->
  I hi (floop lo hi body st).
Proof.
elim: hi => [|hi IH] le H0 Hs.
  by rewrite floop_nil //; move: le; rewrite leqn0 => /eqP <-.
rewrite leq_eqVlt in le; case/orP: le => [/eqP <-|le]; first by rewrite floop_nil.
rewrite ltnS in le; rewrite floopSr //; apply: (Hs); first by rewrite le /=.
apply: IH => // i s /andP[h1 h2] h; apply: Hs => //.
by rewrite h1 ltnS ltnW.
Qed.

(* Updating one entry of a function, used for v(i) = x and column writes. *)
Definition upd (A : Type) (f : nat -> A) (i : nat) (x : A) : nat -> A :=
  fun j => if j == i then x else f j.

Section Sums.
Local Open Scope ring_scope.
Variable V : zmodType.

(* Computable finite sum  sum_{i<n} f i  (Eigen products and dot products). *)
Fixpoint fsum (n : nat) (f : nat -> V) : V :=
  if n is m.+1 then fsum m f + f m else 0.

Lemma fsumE n f : fsum n f = \sum_(i < n) f i.
Proof. by elim: n => [|n IH] /=; [rewrite big_ord0|rewrite big_ord_recr /= IH]. Qed.

Lemma eq_fsum n f g : (forall i, (i < n)%N -> f i = g i) -> fsum n f = fsum n g.
Proof. by move=> h; rewrite !fsumE; apply: eq_bigr => i _; apply: h. Qed.

Lemma fsum0 n f : (forall i, (i < n)%N -> f i = 0) -> fsum n f = 0.
Proof. by move=> h; rewrite fsumE big1 // => i _; apply: h. Qed.

Lemma fsumD n f g : fsum n (fun i => f i + g i) = fsum n f + fsum n g.
Proof. by rewrite !fsumE big_split. Qed.

Lemma fsumB n f g : fsum n (fun i => f i - g i) = fsum n f - fsum n g.
Proof. by rewrite !fsumE sumrB. Qed.

Lemma fsumN n f : fsum n (fun i => - f i) = - fsum n f.
Proof. by rewrite !fsumE sumrN. Qed.

Lemma fsum_recl n f : fsum n.+1 f = f 0%N + fsum n (fun i => f i.+1).
Proof. by rewrite !fsumE big_ord_recl. Qed.

Lemma exchange_fsum m n (f : nat -> nat -> V) :
  fsum m (fun i => fsum n (fun j => f i j)) = fsum n (fun j => fsum m (fun i => f i j)).
Proof.
elim: m => [|m IH] /=; first by rewrite fsum0.
by rewrite IH fsumD.
Qed.

(* only one index contributes *)
Lemma fsum_pick n j f : (j < n)%N -> (forall i, (i < n)%N -> i != j -> f i = 0) ->
  fsum n f = f j.
Proof.
move=> jn h; rewrite fsumE (bigD1 (Ordinal jn)) //= big1 ?addr0 // => i ne.
by apply: h.
Qed.

Lemma fsum_cat m n f : fsum (m + n) f = fsum m f + fsum n (fun i => f (m + i)%N).
Proof.
elim: n => [|n IH]; first by rewrite addn0 /= addr0.
by rewrite addnS /= IH addrA.
Qed.
End Sums.

Section SumsR.
Local Open Scope ring_scope.
Variable R : ringType.
Lemma fsum_mulr n (f : nat -> R) x : fsum n f * x = fsum n (fun i => f i * x).
Proof. by rewrite !fsumE mulr_suml. Qed.
Lemma fsum_mull n (f : nat -> R) x : x * fsum n f = fsum n (fun i => x * f i).
Proof. by rewrite !fsumE mulr_sumr. Qed.
Lemma fsum_delta n j (f : nat -> R) : (j < n)%N ->
  fsum n (fun i => (i == j)%:R * f i) = f j.
Proof.
move=> jn; rewrite (fsum_pick (j := j)) ?eqxx ?mul1r // => i _ /negbTE ->.
by rewrite mul0r.
Qed.
End SumsR.

(* A for-loop whose body may throw or run into undefined behaviour. *)
Definition oloop (S : Type) (lo hi : nat) (body : nat -> S -> outcome S) (st : S)
  : outcome S :=
  floop lo hi (fun i o => obind o (body i)) (Ok st).

Lemma oloop_nil S lo hi body (st : S) : hi <= lo -> oloop lo hi body st = Ok st.
Proof. exact: floop_nil. Qed.

Lemma oloopSr S lo hi body (st : S) : lo <= hi ->
  oloop lo hi.+1 body st = obind (oloop lo hi body st) (body hi).
Proof. exact: floopSr. Qed.

Lemma oloop_ind S lo hi body (st : S) (I : nat -> S -> Prop) : lo <= hi ->
  I lo st ->
  (forall i s, lo <= i < hi -> I i s -> exists2 s', body i s = Ok s' & I i.+1 s') ->
  exists2 s', oloop lo hi body st = Ok s' & I hi s'.
Proof.
move=> le h0 hs.
apply: (@floop_ind _ lo hi (fun i o => obind o (body i)) (Ok st)
  (fun i o => exists2 s', o = Ok s' & I i s')) => //; first by exists st.
move=> i o ib [s -> Is] /=; exact: hs.
Qed.

Section Eigen.
Local Open Scope ring_scope.
Variable R : ringType.

(* Dense Eigen vectors and matrices as functions of their indices; the sizes are
   carried separately (dvec, dmat) wherever the code inspects them. *)
Definition vec := nat -> R.
Definition mat := nat -> nat -> R.

Identity Coercion vec_fun : vec >-> Funclass.
Identity Coercion mat_fun : mat >-> Funclass.

Record dvec := DVec { dv_size : nat; dv_get :> vec }.
Record dmat := DMat { dm_rows : nat; dm_cols : nat; dm_get :> mat }.

(* Eigen products, transpose, zero and identity; n is the inner dimension. *)
Definition mulm (n : nat) (A B : mat) : mat := fun r c => fsum n (fun x => A r x * B x c).
Definition mulv (n : nat) (A : mat) (v : vec) : vec := fun r => fsum n (fun x => A r x * v x).
Definition dotv (n : nat) (v w : vec) : R := fsum n (fun x => v x * w x).
Definition trm (A : mat) : mat := fun r c => A c r.
Definition zerov : vec := fun _ => 0.
Definition zerom : mat := fun _ _ => 0.
Definition eyem : mat := fun r c => (r == c)%:R.

(* X.block(r0,c0,nr,nc) = B  and  X.segment(i0,n) = v *)
Definition set_block (A : mat) (r0 c0 nr nc : nat) (B : mat) : mat :=
  fun r c => if [&& r0 <= r, r < r0 + nr, c0 <= c & c < c0 + nc]%N
             then B (r - r0)%N (c - c0)%N else A r c.
Definition set_segment (v : vec) (i0 n : nat) (w : vec) : vec :=
  fun i => if ((i0 <= i) && (i < i0 + n))%N then w (i - i0)%N else v i.
(* X.block(r0,c0,...) read access *)
Definition get_block (A : mat) (r0 c0 : nat) : mat := fun r c => A (r0 + r)%N (c0 + c)%N.
Definition get_segment (v : vec) (i0 : nat) : vec := fun i => v (i0 + i)%N.
(* X.col(c) = v *)
Definition set_col (A : mat) (c0 : nat) (v : vec) : mat :=
  fun r c => if c == c0 then v r else A r c.
End Eigen.
Arguments zerov {R}.
Arguments zerom {R}.
Arguments eyem {R}.

Lemma fsum_scale (R : ringType) (V : lmodType R) n (a : R) (f : nat -> V) :
  (a *: fsum n f = fsum n (fun i => a *: f i))%R.
Proof. by rewrite !fsumE scaler_sumr. Qed.

Lemma fsum_delta_if (R : ringType) n j (f : nat -> R) :
  (fsum n (fun i => (i == j)%:R * f i) = if (j < n)%N then f j else 0)%R.
Proof.
case: ifP => jn; first by rewrite fsum_delta.
apply: fsum0 => i lt; have /negbTE -> : i != j by apply: contraFN jn => /eqP <-.
by rewrite mul0r.
Qed.

(* Two outcomes agree up to a relation on the returned values. *)
Definition orel A B (R : A -> B -> Prop) (x : outcome A) (y : outcome B) : Prop :=
  match x, y with
  | Ok a, Ok b => R a b
  | Throw e, Throw e' => e = e'
  | UB, UB => True
  | _, _ => False
  end.

Lemma fsum_nested (V : zmodType) k D (f : nat -> V) :
  fsum (k * D) f = fsum k (fun i => fsum D (fun r => f (i * D + r)%N)).
Proof.
elim: k => [|k IH]; first by rewrite mul0n.
by rewrite mulSnr fsum_cat IH.
Qed.
