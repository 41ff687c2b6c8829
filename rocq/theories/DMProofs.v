(* Proofs about the manifold spline model: iterator movement, map operations, init. *)
From mathcomp Require Import all_ssreflect all_algebra.
From mathcomp.algebra_tactics Require Import ring.
From mathcomp.zify Require Import zify.
From Verif Require Import Prelude CoxDeBoor DMModel DMSpec.
Set Implicit Arguments.
Unset Strict Implicit.
Unset Printing Implicit Defensive.
Import GRing.Theory Num.Theory Order.Theory.
Local Open Scope ring_scope.

(* ------------------------------------------------------------- iterator movement *)
Lemma move_upE n limit c it count : (it <= limit <= n)%N ->
  move_up n limit c it count =
  Ok ((it + minn c (limit - it))%N, count + (minn c (limit - it))%:Z).
Proof.
elim: c it count => [|c IH] it count /andP[h1 h2] /=.
  by rewrite min0n addn0 addr0.
have [->|ne] := eqVneq it limit; first by rewrite subnn minn0 addn0 addr0.
have lt : (it < limit)%N by lia.
rewrite /ub_unless (leq_trans lt h2) IH; last by lia.
by congr (Ok (_, _)); lia.
Qed.

Lemma move_up_beyond n limit c it count : (limit < it <= n)%N ->
  move_up n limit c it count =
  if (it + c <= n)%N then Ok ((it + c)%N, count + c%:Z) else UB.
Proof.
elim: c it count => [|c IH] it count /andP[h1 h2] /=.
  by rewrite addn0 h2 addr0.
have -> : (it == limit) = false by lia.
rewrite /ub_unless; case: ltnP => h3.
  by rewrite IH ?addSnnS; [case: ifP => // _; congr (Ok (_, _)); lia|lia].
by case: ifP => //; lia.
Qed.

Lemma move_downE limit c it count : (limit <= it)%N ->
  move_down limit c it count =
  Ok ((it - minn c (it - limit))%N, count - (minn c (it - limit))%:Z).
Proof.
elim: c it count => [|c IH] it count h1 /=.
  by rewrite min0n subn0 subr0.
have [->|ne] := eqVneq it limit; first by rewrite subnn minn0 subn0 subr0.
have lt : (limit < it)%N by lia.
rewrite /ub_unless (leq_ltn_trans _ lt) // IH; last by lia.
by congr (Ok (_, _)); lia.
Qed.

Lemma move_down_beyond limit c it count : (it < limit)%N ->
  move_down limit c it count =
  if (c <= it)%N then Ok ((it - c)%N, count - c%:Z) else UB.
Proof.
elim: c it count => [|c IH] it count h1 /=.
  by rewrite subn0 subr0.
have -> : (it == limit) = false by lia.
rewrite /ub_unless; case: (posnP it) => [->|h3] //.
rewrite IH; last by lia.
have -> : (c <= it.-1)%N = (c < it)%N by lia.
by case: ifP => // _; congr (Ok (_, _)); lia.
Qed.

(* forward movement towards a limit that is not behind *)
Lemma moveIterator_up n it limit steps : (it <= limit <= n)%N -> 0 <= steps ->
  moveIterator n it limit steps =
  Ok ((it + minn `|steps| (limit - it))%N, (minn `|steps| (limit - it))%:Z).
Proof.
move=> h h0; rewrite /moveIterator; case: eqVneq => [->|ne].
  by rewrite absz0 min0n addn0.
by rewrite lt_neqAle eq_sym ne h0 /= move_upE // add0r.
Qed.

Lemma moveIterator_down n it limit steps : (limit <= it)%N -> steps <= 0 ->
  moveIterator n it limit steps =
  Ok ((it - minn `|steps| (it - limit))%N, - (minn `|steps| (it - limit))%:Z).
Proof.
move=> h h0; rewrite /moveIterator; case: eqVneq => [->|ne].
  by rewrite absz0 min0n subn0.
by rewrite ltNge h0 /= move_downE // sub0r.
Qed.

Lemma moveIterator_all n it limit steps : (it <= n)%N -> (limit <= n)%N ->
  moveIterator n it limit steps =
  let q := `|steps|%N in
  if 0 <= steps then
    if (it <= limit)%N
    then Ok ((it + minn q (limit - it))%N, (minn q (limit - it))%:Z)
    else if (it + q <= n)%N then Ok ((it + q)%N, q%:Z) else UB
  else
    if (limit <= it)%N
    then Ok ((it - minn q (it - limit))%N, - (minn q (it - limit))%:Z)
    else if (q <= it)%N then Ok ((it - q)%N, - q%:Z) else UB.
Proof.
move=> h1 h2 /=; case: ifP => h0.
  case: (leqP it limit) => h3; first by rewrite moveIterator_up // h3 h2.
  rewrite /moveIterator; case: eqVneq => [->|ne].
    by rewrite absz0 addn0 h1.
  by rewrite lt_neqAle eq_sym ne h0 /= move_up_beyond ?h3 // add0r.
case: (leqP limit it) => h3; first by rewrite moveIterator_down //; lia.
rewrite /moveIterator; case: eqVneq => [e|ne]; first by rewrite e in h0.
have -> : (0 < steps) = false by lia.
by rewrite move_down_beyond // sub0r.
Qed.

Lemma getMoved_up n it limit (q : nat) : (it + q <= limit <= n)%N ->
  getMovedIterator n it limit q%:Z = Ok (it + q)%N.
Proof.
move=> h; rewrite /getMovedIterator moveIterator_up //; last by lia.
by rewrite /=; congr Ok; lia.
Qed.
Lemma getMoved_down n it limit (q : nat) : (limit + q <= it)%N ->
  getMovedIterator n it limit (- q%:Z) = Ok (it - q)%N.
Proof.
move=> h; rewrite /getMovedIterator moveIterator_down; [|lia..].
by rewrite /=; congr Ok; lia.
Qed.

(* ------------------------------------------------------------- the segment map *)
Lemma eq_mkseqP A (f g : nat -> A) n : (forall i, (i < n)%N -> f i = g i) ->
  mkseq f n = mkseq g n.
Proof.
by move=> h; apply: (@eq_in_map _ _ f g (iota 0 n)).1 => i; rewrite mem_iota => /h.
Qed.

Section Maps.
Variables (F : realFieldType) (T : realDomainType).
Implicit Types (m : seq (seg F T)) (kps : seq (T * vec F)).
Notation keys m := (map (@sg_knot F T) m).

Lemma size_seg_upd m p f : size (seg_upd m p f) = size m.
Proof. by rewrite size_mkseq. Qed.
Lemma nth_seg_upd m p f i : (i < size m)%N ->
  seg_nth (seg_upd m p f) i = if i == p then f (seg_nth m i) else seg_nth m i.
Proof. by move=> h; rewrite /seg_nth nth_mkseq. Qed.
Lemma knot_atE m i : (i < size m)%N -> knot_at m i = nth 0 (keys m) i.
Proof. by move=> h; rewrite /knot_at /seg_nth (nth_map (seg0 F T)). Qed.
Lemma segs_eq m m' : size m = size m' ->
  (forall i, (i < size m)%N -> seg_nth m i = seg_nth m' i) -> m = m'.
Proof. exact: eq_from_nth. Qed.

Lemma keys_seg_upd m p f : (forall x, sg_knot (f x) = sg_knot x) ->
  keys (seg_upd m p f) = keys m.
Proof.
move=> hf; apply: (@eq_from_nth _ 0); rewrite !size_map ?size_iota // => i h.
rewrite -[in RHS]knot_atE // -knot_atE ?size_seg_upd // /knot_at nth_seg_upd //.
by case: ifP.
Qed.

Lemma find_index m t : find (fun x => sg_knot x == t) m = index t (keys m).
Proof. by rewrite /index find_map. Qed.

Lemma pos_ofE m i : uniq (keys m) -> (i < size m)%N ->
  pos_of m (AtKey (knot_at m i)) = Ok i.
Proof.
move=> u h; rewrite /pos_of find_index knot_atE // index_uniq ?size_map //.
by rewrite /ub_unless h.
Qed.
Lemma pos_of_key m i t : uniq (keys m) -> (i < size m)%N -> t = nth 0 (keys m) i ->
  pos_of m (AtKey t) = Ok i.
Proof. by move=> u h ->; rewrite -knot_atE // pos_ofE. Qed.
Lemma derefE m i t : uniq (keys m) -> (i < size m)%N -> t = nth 0 (keys m) i ->
  deref m (AtKey t) = Ok i.
Proof. by move=> u h e; rewrite /deref (pos_of_key u h e) /= /ub_unless h. Qed.
Lemma iter_nextE m i t : uniq (keys m) -> (i.+1 < size m)%N -> t = nth 0 (keys m) i ->
  iter_next m (AtKey t) = Ok (AtKey (nth 0 (keys m) i.+1)).
Proof.
by move=> u h e; rewrite /iter_next (derefE u (ltnW h) e) /= /iter_at h knot_atE.
Qed.

Lemma sorted_uniq_keys (ks : seq T) : sorted <%R ks -> uniq ks.
Proof. exact: (sorted_uniq lt_trans ltxx). Qed.

Lemma keys_lt (ks : seq T) i j : sorted <%R ks -> (i < j)%N -> (j < size ks)%N ->
  nth 0 ks i < nth 0 ks j.
Proof.
move=> s ij jn; have in_ : (i < size ks)%N by lia.
exact: (sorted_ltn_nth lt_trans _ s).
Qed.
Lemma keys_le (ks : seq T) i j : sorted <%R ks -> (i <= j)%N -> (j < size ks)%N ->
  nth 0 ks i <= nth 0 ks j.
Proof.
move=> s; rewrite leq_eqVlt => /orP[/eqP ->|ij] jn; first exact: lexx.
by apply: ltW; apply: keys_lt.
Qed.
End Maps.

Section CanonInit.
Variables (F : realFieldType) (T : realDomainType).
Variables (dbl : T -> F).
Implicit Types (m : seq (seg F T)) (kps : seq (T * vec F)).
Notation keys m := (map (@sg_knot F T) m).

Lemma keys_canon k kps : keys (mkseq (canon_seg dbl k kps) (size kps)) = map fst kps.
Proof.
apply: (@eq_from_nth _ 0); first by rewrite !size_map size_iota.
move=> i; rewrite size_map size_mkseq => h.
by rewrite (nth_map (seg0 F T)) ?size_mkseq // nth_mkseq //= /kp_knot (nth_map kp0).
Qed.
Lemma keys_raw kps : keys (raw_segs kps) = map fst kps.
Proof. by rewrite /raw_segs -map_comp; apply: eq_map. Qed.
Lemma size_raw kps : size (raw_segs kps) = size kps.
Proof. by rewrite size_map. Qed.
Lemma nth_raw kps i : (i < size kps)%N ->
  seg_nth (raw_segs kps) i = Seg (kp_knot kps i) (nth kp0 kps i).2 None.
Proof. by move=> h; rewrite /seg_nth (nth_map kp0). Qed.
Lemma kp_knotE kps i : (i < size kps)%N -> kp_knot kps i = nth 0 (map fst kps) i.
Proof. by move=> h; rewrite /kp_knot (nth_map kp0). Qed.
Lemma nth_canon k kps i : (i < size kps)%N ->
  seg_nth (mkseq (canon_seg dbl k kps) (size kps)) i = canon_seg dbl k kps i.
Proof. by move=> h; rewrite /seg_nth nth_mkseq. Qed.

(* the loop that builds the basis matrices *)
Lemma basis_loopE k (ks : seq T) c a m : (0 < k)%N ->
  keys m = ks -> (a + 2 * k - 1 + c = size ks)%N ->
  dm_basis_loop dbl k (size ks - k) c (a + (2 * k - 1)) (a + (k - 1))
    (take (2 * k - 1) (drop a ks)) m =
  Ok (mkseq (fun i => if (a + (k - 1) <= i)%N && (i + k < size ks)%N
        then set_basis (seg_nth m i)
               (dm_M dbl (nth 0 (take (2 * k) (drop (i.+1 - k) ks))) (k - 1) k)
        else seg_nth m i) (size m)).
Proof.
move=> k0; elim: c a m => [|c IH] a m km sz /=.
  congr Ok; apply: segs_eq; rewrite ?size_mkseq // => i h.
  rewrite {2}/seg_nth nth_mkseq //; case: ifP => //.
  by move=> /andP[]; lia.
have sm : size m = size ks by rewrite -km size_map.
have -> : (a + (k - 1) == size ks - k)%N = false by lia.
have -> : (a + (k - 1) < size m)%N = true by rewrite sm; lia.
rewrite /ub_unless.
have kk : (2 * k = (2 * k - 1).+1)%N by lia.
have rel1 : rcons (take (2 * k - 1) (drop a ks)) (knot_at m (a + (2 * k - 1)))
          = take (2 * k) (drop a ks).
  have L : (2 * k - 1 < size (drop a ks))%N by rewrite size_drop; lia.
  rewrite [in RHS]kk (take_nth 0 L) nth_drop knot_atE ?km //; rewrite sm; lia.
rewrite rel1.
have beh : behead (take (2 * k) (drop a ks)) = take (2 * k - 1) (drop a.+1 ks).
  have L : (a < size ks)%N by lia.
  by rewrite (drop_nth 0 L) [in LHS]kk.
rewrite beh.
have -> : ((a + (2 * k - 1)).+1 = a.+1 + (2 * k - 1))%N by lia.
have -> : ((a + (k - 1)).+1 = a.+1 + (k - 1))%N by lia.
rewrite IH; last 2 first.
- by rewrite keys_seg_upd.
- by lia.
congr Ok; apply: segs_eq; rewrite !size_mkseq // => i h.
rewrite /seg_nth !nth_mkseq // -!/(seg_nth _ _).
case: (eqVneq i (a + (k - 1))%N) => [ei|ne].
  have -> : (a.+1 + (k - 1) <= i)%N = false by lia.
  have -> : (a + (k - 1) <= i)%N && (i + k < size ks)%N by lia.
  by congr (set_basis _ (dm_M _ (nth _ (take _ (drop _ _))) _ _)); lia.
by have -> : (a.+1 + (k - 1) <= i)%N = (a + (k - 1) <= i)%N by lia.
Qed.

Lemma collectE k m a (basisIt : nat) : (0 < k)%N -> (a + (2 * k - 1) <= size m)%N ->
  basisIt = (a + (k - 1))%N ->
  oloop 0 (2 * k - 1) (fun c rel =>
    need (a + c < size m)%N ;
    let rel' := rcons rel (knot_at m (a + c)) in
    assert ((c == k - 1) ==> (basisIt == a + c))%N raise ExnSpline ;
    Ok rel') [::] = Ok (take (2 * k - 1) (drop a (keys m))).
Proof.
move=> k0 sz be.
set body := (X in oloop _ _ X).
have [s' -> ->] // : exists2 s', oloop 0 (2 * k - 1) body [::] = Ok s' &
    s' = take (2 * k - 1) (drop a (keys m)).
apply: (oloop_ind (I := fun i s => s = take i (drop a (keys m)))) => //; first by rewrite take0.
move=> i s h ->; rewrite /body.
have h1 : (a + i < size m)%N by lia.
rewrite /ub_unless h1 /sm_assert be.
have -> : ((i == k - 1) ==> (a + (k - 1) == a + i))%N by apply/implyP => /eqP ->.
eexists; first by reflexivity.
have L : (i < size (drop a (keys m)))%N by rewrite size_drop size_map; lia.
by rewrite knot_atE // -nth_drop -(take_nth 0 L).
Qed.

Lemma initBasisAtE (s : dspline F T) a b :
  let k := ds_order s in let ks := keys (ds_segs s) in
  (0 < k)%N -> sorted <%R ks -> (a + 2 * k <= size ks)%N -> b = (a + (k - 1))%N ->
  ds_end s = AtKey (nth 0 ks (size ks - k)) ->
  dm_initializeBasisMatricesAt dbl s a b =
  Ok (with_segs s (mkseq (fun i => if (b <= i)%N && (i + k < size ks)%N
        then set_basis (seg_nth (ds_segs s) i)
               (dm_M dbl (nth 0 (take (2 * k) (drop (i.+1 - k) ks))) (k - 1) k)
        else seg_nth (ds_segs s) i) (size (ds_segs s)))).
Proof.
move=> k ks k0 srt sz be eend.
rewrite /dm_initializeBasisMatricesAt -/k (collectE k0 _ be); last by rewrite size_map in sz; lia.
have sks : size ks = size (ds_segs s) by rewrite size_map.
rewrite /= eend (@pos_of_key _ _ _ (size ks - k)%N) -?sks //; last 2 first.
- exact: sorted_uniq_keys.
- by lia.
rewrite /obind be (basis_loopE k0) //; last by lia.
by rewrite sks.
Qed.

Lemma initE k kps : good k kps -> dm_init dbl (constructing k kps) = MRet (canon dbl k kps) tt.
Proof.
case/and3P=> k0 sz srt.
rewrite /dm_init /massert /= /dm_getNumValidTimeSegments /ka_getNumValidTimeSegments /dm_getNumKnots.
rewrite [size _]size_raw /=.
have -> : (0 < (size kps).+1 - 2 * k)%N by lia.
rewrite /dm_initIterators /= size_raw.
have -> : k%:Z - 1 = (k - 1)%N%:Z by lia.
rewrite getMoved_up /=; last by lia.
rewrite getMoved_down /=; last by lia.
rewrite /iter_at size_raw.
have -> : (0 + (k - 1) < size kps)%N by lia.
have -> : (size kps - k < size kps)%N by lia.
have -> : (0 < size kps)%N by lia.
rewrite !knot_atE ?size_raw; [|lia..]; rewrite keys_raw.
rewrite /dm_initializeBasisMatrices.
rewrite (@pos_of_key _ _ _ 0) ?keys_raw ?size_raw; [|exact: sorted_uniq_keys|lia|by []].
rewrite [in X in mread _ X]/obind.
rewrite (@pos_of_key _ _ _ (k - 1)%N) ?keys_raw ?size_raw; [|exact: sorted_uniq_keys|lia|by rewrite add0n].
rewrite initBasisAtE /= ?keys_raw ?size_map ?size_raw ?add0n //.
rewrite /with_segs /= /canon !kp_knotE; [|lia..].
congr (MRet (DSpline _ _ _ _ _ _) tt); apply: eq_mkseqP => i h.
rewrite nth_raw; last by lia.
rewrite /canon_seg /window.
have -> : (k - 1 <= i)%N = (k <= i.+1)%N by lia.
by case: ifP.
Qed.
End CanonInit.
