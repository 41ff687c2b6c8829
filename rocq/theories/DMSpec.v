(* Specification vocabulary for the manifold spline: time policies, construction histories,
   the state that belongs to a knot list, the curve. *)
From mathcomp Require Import all_ssreflect all_algebra.
From Verif Require Import Prelude CoxDeBoor DMModel.
Set Implicit Arguments.
Unset Strict Implicit.
Unset Printing Implicit Defensive.
Import GRing.Theory Num.Theory.
Local Open Scope ring_scope.

Section Spec.
Variables (F : realFieldType) (T : realDomainType).
Variables (dbl : T -> F) (one : T).

(* A time policy with exact conversion to double: (double)t is additive and strictly
   monotone, and one second is a positive duration.  SimpleTypeTimePolicy<double> has
   dbl = id and one = 1; NsecTimePolicy has dbl n = n and one = 10^9 (exact as long as the
   integers fit into 53 bits). *)
Record exact_time : Prop := ExactTime {
  et_sub : forall a b, dbl (a - b) = dbl a - dbl b;
  et_lt : forall a b, a < b -> dbl a < dbl b;
  et_one : 0 < one
}.

(* time in seconds *)
Definition sec (t : T) : F := dbl t / dbl one.

(* Construction calls. *)
Inductive cop := AddKnot of T | AddVertex of T & vec F.
Definition cop_time (o : cop) : T := match o with AddKnot t => t | AddVertex t _ => t end.

(* a sequence of construction calls on the model (a call that throws changes nothing) *)
Definition run_cop (mf : manifold F) (s : dspline F T) (o : cop) : dspline F T :=
  match o with
  | AddKnot t => dm_addKnot mf s t
  | AddVertex t p =>
    match dm_addControlVertex mf s t p with MRet s' _ | MThrow s' _ => s' | MUB => s end
  end.
Definition run_cops mf s (os : seq cop) := foldl (run_cop mf) s os.

(* the calls that are accepted *)
Definition accepted (mf : manifold F) (o : cop) : bool :=
  match o with AddKnot _ => true | AddVertex _ p => mf_in mf p end.
(* the distinct times in increasing order *)
Definition knot_list (mf : manifold F) (os : seq cop) : seq T :=
  sort <=%R (undup [seq cop_time o | o <- os & accepted mf o]).
(* the point of the first accepted call with time t *)
Definition first_point (mf : manifold F) (os : seq cop) (t : T) : vec F :=
  match nth (AddKnot 0) os (find (fun o => accepted mf o && (cop_time o == t)) os) with
  | AddKnot _ => mf_default mf
  | AddVertex _ p => p
  end.
Definition knot_points (mf : manifold F) (os : seq cop) : seq (T * vec F) :=
  [seq (t, first_point mf os t) | t <- knot_list mf os].

(* The initialised spline of order k with the given knots and points: basis matrices for
   the valid segments k-1 .. n-k-1, valid interval from knot k-1 to knot n-k. *)
Definition kp0 : T * vec F := (0, zerov).
Definition kp_knot (kps : seq (T * vec F)) (i : nat) : T := (nth kp0 kps i).1.
Definition window (k : nat) (kps : seq (T * vec F)) (i : nat) : seq T :=
  take (2 * k) (drop (i.+1 - k) (map fst kps)).
Definition canon_seg (k : nat) (kps : seq (T * vec F)) (i : nat) : seg F T :=
  Seg (kp_knot kps i) (nth kp0 kps i).2
    (if (k <= i.+1)%N && (i + k < size kps)%N
     then Some (dm_M dbl (nth 0 (window k kps i)) (k - 1) k) else None).
Definition canon (k : nat) (kps : seq (T * vec F)) : dspline F T :=
  DSpline k true (mkseq (canon_seg k kps) (size kps))
    (AtKey (kp_knot kps (k - 1))) (AtKey (kp_knot kps (size kps - k))) (AtKey (kp_knot kps 0)).
(* knots and points before init *)
Definition raw_segs (kps : seq (T * vec F)) : seq (seg F T) :=
  [seq Seg tp.1 tp.2 None | tp <- kps].
Definition constructing (k : nat) (kps : seq (T * vec F)) : dspline F T :=
  DSpline k false (raw_segs kps) Singular Singular Singular.

Definition increasing (kps : seq (T * vec F)) : bool := sorted <%R (map fst kps).
(* a list of knots and points from which a spline of order k can be made *)
Definition good (k : nat) (kps : seq (T * vec F)) : bool :=
  [&& (0 < k)%N, (2 * k <= size kps)%N & increasing kps].

(* Knots and points after appending the knots ts: new knots carry the default point; if a
   value is given it becomes the point of the |ts| vertices that become active (from
   position n-k on). *)
Definition append_points (mf : manifold F) (k : nat) (kps : seq (T * vec F)) (ts : seq T)
  (value : option (vec F)) : seq (T * vec F) :=
  let base := kps ++ [seq (t, mf_default mf) | t <- ts] in
  let e := (size kps - k)%N in
  mkseq (fun i => let tp := nth kp0 base i in
    (tp.1, if (e <= i < e + size ts)%N then odflt tp.2 value else tp.2)) (size base).

(* The segment that belongs to time t: the last valid knot not after t. *)
Definition is_segment (k : nat) (kps : seq (T * vec F)) (t : T) (i : nat) : Prop :=
  [/\ (k <= i.+1)%N, (i + k < size kps)%N, kp_knot kps i <= t
    & t < kp_knot kps i.+1 \/ (i.+1 + k = size kps)%N /\ t = kp_knot kps i.+1].

(* Component r of the curve on knot interval i as a polynomial in the time in seconds:
   B-spline basis functions of degree k-1 over the knots; n-k control vertices. *)
Definition dm_piece (k : nat) (kps : seq (T * vec F)) (r i : nat) : {poly F} :=
  curve_piece (fun j => sec (kp_knot kps j)) k.-1 (size kps - k)
    (fun j => (nth kp0 kps j).2 r) i.
(* Replacing the n points from position a on: point a+i becomes g i (old point). *)
Definition with_points (kps : seq (T * vec F)) (a n : nat) (g : nat -> vec F -> vec F)
  : seq (T * vec F) :=
  mkseq (fun j => let tp := nth kp0 kps j in
    (tp.1, if (a <= j < a + n)%N then g (j - a)%N tp.2 else tp.2)) (size kps).

(* A matrix holds m points of dimension D in one of four layouts: as columns, as rows, one
   after the other in a row vector or in a column vector. *)
Definition layout_ok (D : nat) (C : dmat F) : bool :=
  [|| dm_rows C == D, dm_cols C == D |
    ((dm_rows C == 1%N) || (dm_cols C == 1%N)) && (D %| dm_rows C * dm_cols C)%N].
Definition layout_count (D : nat) (C : dmat F) : nat := ((dm_rows C * dm_cols C) %/ D)%N.
Definition layout_point (D : nat) (C : dmat F) (i : nat) : vec F := fun r =>
  if dm_rows C == D then C r i
  else if dm_cols C == D then C i r
  else if dm_rows C == 1%N then C 0%N (i * D + r)%N
  else C (i * D + r)%N 0%N.

(* Value of a spline on a Lie group: P_0 exp(b_1 log(P_0^-1 P_1)) ... exp(b_{k-1} log(...)),
   factors with b_j = 0 left out. *)
Fixpoint lie_curve (mf : manifold F) (b : nat -> F) (P : nat -> vec F) (j : nat) : vec F :=
  if j is j'.+1 then
    if b j == 0 then lie_curve mf b P j'
    else mf_exp mf (lie_curve mf b P j') (fun r => mf_log mf (P j') (P j) r * b j)
  else P 0%N.

(* Weight of the c-th relevant control vertex for the d-th derivative at time t on segment i,
   and the cumulative weights. *)
Definition seg_weight (k : nat) (kps : seq (T * vec F)) (t : T) (i d c : nat) : F :=
  (basis_poly (fun j => sec (kp_knot kps j)) i k.-1 (i.+1 - k + c))^`(d).[sec t].
Definition cum_weight (k : nat) (kps : seq (T * vec F)) (t : T) (i d j : nat) : F :=
  \sum_(j <= c < k) seg_weight k kps t i d c.

(* Splines built by the public calls, together with the knots and points they stand for. *)
Inductive built (mf : manifold F) (k : nat) : seq (T * vec F) -> dspline F T -> Prop :=
  | built_init os s : (0 < k)%N -> dm_init dbl (run_cops mf (dm_new F T k) os) = MRet s tt ->
      built mf k (knot_points mf os) s
  | built_append kps s ts value s' t : built mf k kps s -> sorted <%R (map fst kps ++ ts) ->
      dm_appendSegments dbl mf s true ts value = MRet s' t ->
      built mf k (append_points mf k kps ts value) s'
  | built_copy kps s s' : built mf k kps s -> dm_copy s = Ok s' -> built mf k kps s'
  | built_set kps s C t i s' : built mf k kps s -> is_segment k kps t i ->
      layout_ok (mf_size mf) C -> dm_setControlVerticesAt mf s C t 0 = MRet s' tt ->
      built mf k (with_points kps (i.+1 - k) (layout_count (mf_size mf) C)
                    (fun j _ => mf_project mf (layout_point (mf_size mf) C j))) s'
  | built_manipulate kps s f g n t i s' : built mf k kps s -> is_segment k kps t i ->
      (forall j v, f j v = Ok (g j v)) -> dm_manipulateControlVertices s f n t 0 = MRet s' tt ->
      built mf k (with_points kps (i.+1 - k) n g) s'
  | built_local kps s c t i s' : built mf k kps s -> is_segment k kps t i ->
      dm_setLocalCoefficientVector mf s t c (mf_size mf) = MRet s' tt ->
      built mf k (with_points kps (i.+1 - k) k (fun j _ => get_segment c (j * mf_size mf))) s'.
End Spec.
Arguments kp0 {F T}.
