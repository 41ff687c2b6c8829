(* Control vertex access of the manifold spline and the states it can reach. *)
From mathcomp Require Import all_ssreflect all_algebra.
From mathcomp.zify Require Import zify.
From Verif Require Import Prelude CoxDeBoor CoxDeBoorProofs DMModel DMSpec DMProofs
  DMConstructProofs DMAppendProofs DMEvalProofs.
Set Implicit Arguments.
Unset Strict Implicit.
Unset Printing Implicit Defensive.
Import GRing.Theory Num.Theory Order.Theory.
Local Open Scope ring_scope.
#[local] Arguments pos_of : simpl never.
#[local] Arguments deref : simpl never.
#[local] Arguments iter_next : simpl never.
#[local] Arguments canon : simpl never.

Section Access.
Variables (F : realFieldType) (T : realDomainType).
Variables (dbl : T -> F).
Implicit Types (m : seq (seg F T)) (kps : seq (T * vec F)).

Lemma size_with kps a n g : size (with_points kps a n g) = size kps.
Proof. by rewrite size_mkseq. Qed.
Lemma nth_with kps a n g j : (j < size kps)%N -> nth kp0 (with_points kps a n g) j =
  (kp_knot kps j, if (a <= j < a + n)%N then g (j - a)%N (nth kp0 kps j).2
                  else (nth kp0 kps j).2).
Proof. by move=> h; rewrite nth_mkseq. Qed.
Lemma keys_with kps a n g : map fst (with_points kps a n g) = map fst kps.
Proof.
apply: (@eq_from_nth _ 0); first by rewrite !size_map size_iota.
move=> i; rewrite size_map size_mkseq => h.
by rewrite !(nth_map kp0) ?size_mkseq // nth_mkseq.
Qed.
Lemma good_with k kps a n g : good k kps -> good k (with_points kps a n g).
Proof. by rewrite /good /increasing size_with keys_with. Qed.
Lemma knot_with kps a n g j : (j < size kps)%N -> kp_knot (with_points kps a n g) j = kp_knot kps j.
Proof. by move=> h; rewrite {1}/kp_knot nth_with. Qed.
Lemma with_points0 kps a g : with_points kps a 0 g = kps.
Proof.
apply: (@eq_from_nth _ kp0); first by rewrite size_with.
move=> i; rewrite size_with => h; rewrite nth_with // addn0 /kp_knot.
by case: ifP => [|_]; [lia|case: (nth _ _ _)].
Qed.

Lemma canon_seg_pts k kps kps' i : map fst kps' = map fst kps -> (i < size kps)%N ->
  canon_seg dbl k kps' i = set_pt (canon_seg dbl k kps i) (nth kp0 kps' i).2.
Proof.
move=> e h; have sz : size kps' = size kps by rewrite -(size_map fst) e size_map.
rewrite /canon_seg /set_pt /= sz /window e; congr Seg.
by rewrite !kp_knotE ?sz // e.
Qed.

Lemma canon_upd k kps p v : (p < size kps)%N ->
  seg_upd (ds_segs (canon dbl k kps)) p (fun g => set_pt g v) =
  ds_segs (canon dbl k (with_points kps p 1 (fun _ _ => v))).
Proof.
move=> h; apply: segs_eq; first by rewrite size_seg_upd !size_mkseq.
move=> i; rewrite size_seg_upd size_canon => hi.
rewrite nth_seg_upd ?size_canon // !nth_canon ?size_with //.
rewrite (canon_seg_pts k (keys_with kps p 1 (fun _ _ => v)) hi) nth_with //=.
have [->|ne] := eqVneq i p.
  by rewrite leqnn addn1 ltnSn.
case: ifP => [|_]; first by lia.
by rewrite /set_pt /canon_seg /=.
Qed.

Lemma canon_with_segs k kps kps' : (0 < k)%N -> map fst kps' = map fst kps ->
  (2 * k <= size kps)%N ->
  with_segs (canon dbl k kps) (ds_segs (canon dbl k kps')) = canon dbl k kps'.
Proof.
move=> k0 e sz; have sz' : size kps' = size kps by rewrite -(size_map fst) e size_map.
rewrite /with_segs /canon /= sz'.
have kE i : (i < size kps)%N -> kp_knot kps' i = kp_knot kps i.
  by move=> h; rewrite !kp_knotE ?sz' // e.
by rewrite !kE //; lia.
Qed.

Lemma with_pointsS kps a j g : (a + j < size kps)%N ->
  with_points kps a j.+1 g =
  with_points (with_points kps a j g) (a + j) 1 (fun _ _ => g j (nth kp0 kps (a + j)).2).
Proof.
move=> h; apply: (@eq_from_nth _ kp0); first by rewrite !size_with.
move=> i; rewrite size_with => hi; rewrite nth_with // nth_with ?size_with //.
rewrite knot_with //; congr (_, _); rewrite nth_with //=.
have [->|ne] := eqVneq i (a + j)%N.
  by rewrite leq_addr addnS addn1 !ltnSn leqnn /= addKn.
have -> : (a + j <= i < a + j + 1)%N = false by lia.
by have -> : (a <= i < a + j.+1)%N = (a <= i < a + j)%N by lia.
Qed.
Lemma with_points_end kps a j g : (size kps <= a + j)%N ->
  with_points kps a j.+1 g = with_points kps a j g.
Proof.
move=> h; apply: eq_mkseqP => i hi; congr (_, _).
by have -> : (a <= i < a + j.+1)%N = (a <= i < a + j)%N by lia.
Qed.

Section Canon.
Variables (k : nat) (kps : seq (T * vec F)).
Hypothesis gd : good k kps.
Notation n := (size kps).
Notation cs := (canon dbl k kps).
Let k0 : (0 < k)%N. Proof. by case/and3P: gd. Qed.
Let sz : (2 * k <= n)%N. Proof. by case/and3P: gd. Qed.

Lemma numSegE : dm_getNumValidTimeSegments cs = (n - 2 * k + 1)%N.
Proof.
rewrite /dm_getNumValidTimeSegments /ka_getNumValidTimeSegments /dm_getNumKnots size_canon.
by move: k0 sz; clear; rewrite /=; lia.
Qed.
Lemma numCVE : dm_getNumControlVertices cs = Ok (n - k)%N.
Proof.
rewrite /dm_getNumControlVertices /sm_assert /= numSegE /ka_getNumControlVerticesRequired.
by congr Ok; move: k0 sz; clear; lia.
Qed.

(* the loop of manipulateControlVertices *)
Definition mstep (f : nat -> vec F -> outcome (vec F)) it (r : mres (dspline F T) unit) i :=
  mbind r (fun s' _ =>
    if (it + i < size (ds_segs s'))%N then
      mread s' (f i (sg_pt (seg_nth (ds_segs s') (it + i))))
        (fun v => MRet (with_segs s' (seg_upd (ds_segs s') (it + i) (fun g => set_pt g v))) tt)
    else MRet s' tt).

Lemma mstepE f it (s : dspline F T) i : mstep f it (MRet s tt) i =
  if (it + i < size (ds_segs s))%N then
    mread s (f i (sg_pt (seg_nth (ds_segs s) (it + i))))
      (fun v => MRet (with_segs s (seg_upd (ds_segs s) (it + i) (fun g => set_pt g v))) tt)
  else MRet s tt.
Proof. by []. Qed.
Lemma foldl1 A B (f : A -> B -> A) z x : foldl f z [:: x] = f z x.
Proof. by []. Qed.
Lemma foldl_cons A B (f : A -> B -> A) z x l : foldl f z (x :: l) = foldl f (f z x) l.
Proof. by []. Qed.
Lemma mreadOk S A B (s : S) (a : A) (f : A -> mres S B) : mread s (Ok a) f = f a.
Proof. by []. Qed.

Lemma msteps f g it q : (forall i, (i < q)%N -> (it + i < n)%N ->
    f i (nth kp0 kps (it + i)).2 = Ok (g i (nth kp0 kps (it + i)).2)) ->
  foldl (mstep f it) (MRet cs tt) (iota 0 q) = MRet (canon dbl k (with_points kps it q g)) tt.
Proof.
elim: q => [|q IH] H; first by rewrite with_points0.
rewrite -[q.+1]addn1 iotaD add0n foldl_cat IH; last by move=> i iq; apply: H; lia.
rewrite foldl1 mstepE size_canon size_with addn1; case: ltnP => h; last by rewrite with_points_end.
rewrite canon_pt ?size_with // nth_with // [snd _]/=.
have -> : (it <= it + q < it + q)%N = false by lia.
rewrite H // mreadOk canon_upd ?size_with // -with_pointsS //.
congr (MRet _ tt); apply: canon_with_segs => //; last by rewrite size_with.
by rewrite !keys_with.
Qed.

Lemma msteps_fail f g it q e (l : seq nat) : (forall i, (i < q)%N -> (it + i < n)%N ->
    f i (nth kp0 kps (it + i)).2 = Ok (g i (nth kp0 kps (it + i)).2)) ->
  (it + q < n)%N -> f q (nth kp0 kps (it + q)).2 = Throw e ->
  foldl (mstep f it) (MRet cs tt) (iota 0 q ++ q :: l) =
  MThrow (canon dbl k (with_points kps it q g)) e.
Proof.
move=> H h He; rewrite foldl_cat (msteps H) foldl_cons mstepE size_canon size_with h.
rewrite canon_pt ?size_with // nth_with // [snd _]/=.
have -> : (it <= it + q < it + q)%N = false by lia.
rewrite He /=; elim: l => //.
Qed.

(* where the loop starts *)
Definition start_pos (i : nat) (offset : int) : outcome nat :=
  let a := (i.+1 - k)%N in
  if 0 <= offset then Ok (minn (a + `|offset|) (n - k))
  else if (k - 1 <= a)%N then Ok (maxn (a - `|offset|) (k - 1))
  else if (`|offset| <= a)%N then Ok (a - `|offset|)%N else UB.

Lemma manipulateE f q t i offset : is_segment k kps t i ->
  dm_manipulateControlVertices cs f q t offset =
  if (q <= n - k)%N then
    mread cs (start_pos i offset) (fun it => foldl (mstep f it) (MRet cs tt) (iota 0 q))
  else MThrow cs ExnSpline.
Proof.
move=> sg; have [i1 i2 i3 i4] := sg.
rewrite /dm_manipulateControlVertices numCVE [mread _ (Ok _) _]/= /massert.
case: leqP => // qn; rewrite (segIterE dbl gd sg) [mread _ (Ok _) _]/=.
rewrite (firstRelevantE dbl gd) //; last by move: i2; clear; lia.
rewrite [mread _ (Ok _) _]/=.
suff -> : (if offset == 0 then Ok (i.+1 - k)%N
   else (do lim <- pos_of (ds_segs cs) (if 0 < offset then ds_end cs else ds_begin cs);
    getMovedIterator (size (ds_segs cs)) (i.+1 - k) lim offset)) = start_pos i offset by [].
rewrite /start_pos size_canon; case: eqVneq => [->|ne].
  rewrite lexx absz0 addn0; congr Ok; move: i1 i2 sz; clear; lia.
case: (ltP 0 offset) => pos.
  rewrite (ltW pos) [ds_end _]/= (canon_pos dbl gd); last by move: k0 sz; clear; lia.
  rewrite /= /getMovedIterator moveIterator_up /=; [|move: k0 sz i2; clear; lia|exact: ltW].
  by congr Ok; move: i2 i1 sz k0; clear; lia.
have neg : offset < 0 by rewrite lt_neqAle ne.
rewrite leNgt neg /= (canon_pos dbl gd) /=; last by move: k0 sz; clear; lia.
rewrite /getMovedIterator moveIterator_all; [|move: k0 sz i2; clear; lia..].
rewrite /= leNgt neg /=; case: leqP => h /=; last by case: leqP.
congr Ok; move: h; clear; lia.
Qed.

(* setControlVertices *)
Lemma setCVE (mf : manifold F) C t i offset it : is_segment k kps t i ->
  (0 < mf_size mf)%N -> layout_ok (mf_size mf) C -> start_pos i offset = Ok it ->
  dm_setControlVerticesAt mf cs C t offset =
  if (layout_count (mf_size mf) C <= n - k)%N
  then MRet (canon dbl k (with_points kps it (layout_count (mf_size mf) C)
               (fun j _ => mf_project mf (layout_point (mf_size mf) C j)))) tt
  else MThrow cs ExnSpline.
Proof.
move=> sg D0 lay hs; rewrite /dm_setControlVerticesAt.
have fin f q : q = layout_count (mf_size mf) C ->
    (forall i v, (i < q)%N -> f i v = Ok (mf_project mf (layout_point (mf_size mf) C i))) ->
    dm_manipulateControlVertices cs f q t offset =
    if (layout_count (mf_size mf) C <= n - k)%N
    then MRet (canon dbl k (with_points kps it (layout_count (mf_size mf) C)
                 (fun j _ => mf_project mf (layout_point (mf_size mf) C j)))) tt
    else MThrow cs ExnSpline.
  move=> qE H; rewrite (manipulateE _ _ _ sg) -qE; case: leqP => // qn.
  by rewrite hs mreadOk (msteps (g := fun j _ => mf_project mf (layout_point (mf_size mf) C j)))
    // => j jq _; apply: H.
have [D1|D1] := eqVneq (mf_size mf) 1%N.
  apply: fin; first by rewrite /layout_count D1 divn1.
  move=> j v jn; rewrite /dm_vertex /ub_unless /layout_point D1.
  have [r1|r1] := eqVneq (dm_rows C) 1%N.
    by rewrite r1 mul1n in jn; rewrite jn.
  have c1 : dm_cols C = 1%N.
    by move: lay; rewrite /layout_ok D1 (negbTE r1) /= => /orP[/eqP|/andP[/eqP]].
  by rewrite c1 muln1 in jn; rewrite c1 jn /=.
have [rD|rD] := eqVneq (dm_rows C) (mf_size mf).
  apply: fin => // j v jn; rewrite /dm_vertex /ub_unless /layout_point rD eqxx.
  by rewrite rD mulKn // in jn; rewrite jn.
have [cD|cD] := eqVneq (dm_cols C) (mf_size mf).
  apply: fin => // j v jn; rewrite /dm_vertex /ub_unless /layout_point cD eqxx (negbTE rD).
  by rewrite cD mulnK // in jn; rewrite jn.
have := lay; rewrite /layout_ok (negbTE rD) (negbTE cD) /= => /andP[rc dv].
have nz : ((dm_rows C * dm_cols C) %% mf_size mf == 0)%N by rewrite -/(dvdn _ _).
rewrite nz /massert.
have le j : (j < (dm_rows C * dm_cols C) %/ mf_size mf)%N ->
    (j * mf_size mf + mf_size mf <= dm_rows C * dm_cols C)%N.
  move=> jn; rewrite -mulSnr; apply: leq_trans (leq_trunc_div _ (mf_size mf)).
  by rewrite leq_mul2r jn orbT.
have [r1|r1] := eqVneq (dm_rows C) 1%N.
  apply: fin => // j v /le; rewrite /dm_vertex /ub_unless /layout_point r1 mul1n => ->.
  by rewrite r1 in rD; rewrite (negbTE rD) (negbTE cD).
have c1 : dm_cols C = 1%N by move: rc; rewrite (negbTE r1) => /eqP.
rewrite c1 eqxx; rewrite c1 in cD.
apply: fin; first by rewrite /layout_count c1.
move=> j v; rewrite -{1}c1 => /le; rewrite /dm_vertex /ub_unless /layout_point c1 muln1 => ->.
by rewrite (negbTE r1) (negbTE rD) (negbTE cD).
Qed.

Lemma setCV_bad (mf : manifold F) (s : dspline F T) C t offset : mf_size mf != 1%N ->
  ~~ layout_ok (mf_size mf) C ->
  dm_setControlVerticesAt mf s C t offset = MThrow s ExnSpline.
Proof.
move=> D1; rewrite /dm_setControlVerticesAt /layout_ok (negbTE D1).
case: eqP => //= _; case: eqP => //= _.
rewrite /massert /dvdn; case: eqP => [_ /= /negbTE ->|_] //=.
by case: eqP => [_ /= /negbTE ->|].
Qed.

Lemma start_pos0 i : (k <= i.+1)%N -> (i + k < n)%N -> start_pos i 0 = Ok (i.+1 - k)%N.
Proof. by move=> h1 h2; rewrite /start_pos lexx absz0 addn0; congr Ok; move: h2 k0; clear; lia. Qed.

(* local coefficient vectors *)
Lemma setLocalE (mf : manifold F) t i (c : dvec F) : is_segment k kps t i ->
  dm_setLocalCoefficientVector mf cs t c (mf_size mf) =
  if (dv_size c == k * mf_size mf)%N
  then MRet (canon dbl k (with_points kps (i.+1 - k) k
               (fun j _ => get_segment c (j * mf_size mf)))) tt
  else MThrow cs ExnSpline.
Proof.
move=> sg; have [i1 i2 i3 i4] := sg.
rewrite /dm_setLocalCoefficientVector (segIterE dbl gd sg) mreadOk /massert.
have -> : ((k - 1) * mf_size mf + mf_size mf = k * mf_size mf)%N.
  by rewrite -mulSnr; congr (_ * _)%N; move: k0; clear; lia.
rewrite [ds_order cs]/=; case: eqP => // _; rewrite /ub_unless eqxx mreadOk; congr (MRet _ tt).
set D := mf_size mf.
have H q : (q <= k)%N -> foldl (fun m x => if (x <= i)%N then
      seg_upd m (i - x) (fun g => set_pt g (get_segment c ((k - 1 - x) * D))) else m)
      (ds_segs cs) (iota 0 q) =
    ds_segs (canon dbl k (with_points kps (i.+1 - q) q
      (fun j _ => get_segment c ((k - q + j) * D)))).
  elim: q => [|q IH] qk; first by rewrite with_points0.
  rewrite -[q.+1]addn1 iotaD add0n foldl_cat IH ?(ltnW qk) // foldl1.
  have -> : (q <= i)%N by move: qk i1; clear; lia.
  have iq : (i - q < n)%N by move: i2; clear; lia.
  rewrite canon_upd ?size_with //; congr (ds_segs (canon _ _ _)).
  apply: (@eq_from_nth _ kp0); first by rewrite !size_with.
  move=> j; rewrite !size_with => jn; rewrite nth_with ?size_with // nth_with // knot_with //.
  rewrite nth_with // [snd _]/=; congr (_, _).
  have qi : (q <= i)%N by move: qk i1; clear; lia.
  have [jE|ne] := eqVneq j (i - q)%N.
    have -> : (i - q <= j < i - q + 1)%N by rewrite jE; lia.
    have -> : (i.+1 - (q + 1) <= j < i.+1 - (q + 1) + (q + 1))%N by rewrite jE; move: qi; clear; lia.
    congr (get_segment _ (_ * _)); rewrite jE; move: qi qk; clear; lia.
  have -> : (i - q <= j < i - q + 1)%N = false by move: ne; clear; lia.
  have -> : (i.+1 - (q + 1) <= j < i.+1 - (q + 1) + (q + 1))%N
          = (i.+1 - q <= j < i.+1 - q + q)%N by move: ne qi; clear; lia.
  case: ifP => // jq.
  congr (get_segment _ (_ * _)); move: jq qi qk; clear; lia.
rewrite H // subnn.
by apply: canon_with_segs => //; rewrite keys_with.
Qed.

Lemma getLocalE (mf : manifold F) t i junk : is_segment k kps t i ->
  exists2 c, dm_getLocalCoefficientVector mf cs t (mf_size mf) junk = Ok c &
  dv_size c = (mf_size mf * k)%N /\ forall j r, (j < k)%N -> (r < mf_size mf)%N ->
    c (j * mf_size mf + r)%N = (nth kp0 kps (i.+1 - k + j)).2 r.
Proof.
move=> sg; have [i1 i2 i3 i4] := sg.
rewrite /dm_getLocalCoefficientVector (segIterE dbl gd sg) /= /ub_unless eqxx.
eexists; first by reflexivity.
split=> //=; set D := mf_size mf.
have H q : (q <= k)%N -> forall j r, (j < k)%N -> (r < D)%N ->
  foldl (fun v x => if (x <= i)%N then
      set_segment v ((k - 1 - x) * D) D (sg_pt (seg_nth (ds_segs cs) (i - x))) else v) junk
      (iota 0 q) (j * D + r)%N =
  if (k - q <= j)%N then (nth kp0 kps (i.+1 - k + j)).2 r else junk (j * D + r)%N.
  elim: q => [|q IH] qk j r jk rD; first by rewrite subn0 leqNgt jk.
  rewrite -[q.+1]addn1 iotaD add0n foldl_cat foldl1.
  have qi : (q <= i)%N by move: qk i1; clear; lia.
  have dvd : ((k - 1 - q) * D <= j * D + r < (k - 1 - q) * D + D)%N = (j == k - 1 - q)%N.
    apply/idP/eqP => [/andP[a1 a2]|->]; last by rewrite leq_addr ltn_add2l rD.
    have b1 : ((k - 1 - q) * D < j.+1 * D)%N.
      by apply: leq_ltn_trans a1 _; rewrite mulSnr ltn_add2l.
    have b2 : (j * D < (k - 1 - q).+1 * D)%N.
      by apply: leq_ltn_trans (leq_addr r _) _; rewrite mulSnr.
    rewrite !ltn_mul2r in b1 b2; case/andP: b1 => _ b1; case/andP: b2 => _ b2.
    by move: b1 b2; clear; lia.
  rewrite qi /set_segment dvd; case: eqP => [jE|/eqP ne].
    rewrite canon_pt; last by move: i2; clear; lia.
    have -> : (k - (q + 1) <= j)%N by rewrite jE; move: qk; clear; lia.
    congr (snd (nth _ _ _) _); first by rewrite jE; move: qk i1; clear; lia.
    by rewrite jE addKn.
  rewrite IH ?(ltnW qk) //.
  by have -> : (k - (q + 1) <= j)%N = (k - q <= j)%N by move: ne qk; clear; lia.
move=> j r jk rD; have := H k (leqnn k) j r jk rD.
by rewrite subnn leq0n => <-.
Qed.

(* copying *)
Lemma copyE : dm_copy cs = Ok cs.
Proof.
rewrite /dm_copy /= /dm_initIterators /= size_mkseq.
rewrite getMoved_down //=; last by move: k0 sz; clear; lia.
have -> : k%:Z - 1 = (k - 1)%N%:Z by move: k0; clear; lia.
rewrite getMoved_up /=; last by move: k0 sz; clear; lia.
rewrite /canon; congr (Ok (DSpline _ _ _ _ _ _)).
- rewrite /iter_at size_mkseq add0n; have h : (k - 1 < n)%N by move: k0 sz; clear; lia.
  by rewrite h canon_knot_at.
- rewrite /iter_at size_mkseq; have h : (n - k < n)%N by move: k0 sz; clear; lia.
  by rewrite h canon_knot_at.
- rewrite /iter_at size_mkseq; have h : (0 < n)%N by move: k0 sz; clear; lia.
  by rewrite h canon_knot_at.
Qed.
End Canon.

Lemma init_few k kps : (size kps < 2 * k)%N ->
  dm_init dbl (constructing k kps) = MThrow (constructing k kps) ExnSpline.
Proof.
move=> h; rewrite /dm_init /massert /= /dm_getNumValidTimeSegments /ka_getNumValidTimeSegments.
rewrite /dm_getNumKnots [size _]size_raw [ds_order _]/=.
by have -> : (0 < (size kps).+1 - 2 * k)%N = false by move: h; clear; lia.
Qed.
Lemma init_again k kps : dm_init dbl (canon dbl k kps) = MThrow (canon dbl k kps) ExnSpline.
Proof. by []. Qed.

Lemma good_append (mf : manifold F) k kps ts value : good k kps -> sorted <%R (map fst kps ++ ts) ->
  good k (append_points mf k kps ts value).
Proof.
case/and3P=> k0 sz _ srt; rewrite /good /increasing k0 size_append keys_append srt andbT /=.
exact: leq_trans sz (leq_addr _ _).
Qed.

Lemma good_knot_points (mf : manifold F) k (os : seq (cop F T)) : (0 < k)%N -> (2 * k <= size (knot_list mf os))%N ->
  good k (knot_points mf os).
Proof.
by move=> k0 sz; rewrite /good k0 increasing_knot_points andbT size_knot_points.
Qed.

(* every state the public calls can build belongs to its knots and points *)
Lemma builtE (mf : manifold F) k kps s : (0 < mf_size mf)%N -> built dbl mf k kps s ->
  good k kps /\ s = canon dbl k kps.
Proof.
move=> D0; elim=> {kps s}.
- move=> os s k0; rewrite constructE.
  have [h|h] := ltnP (size (knot_points mf os)) (2 * k); first by rewrite init_few.
  have gd : good k (knot_points mf os) by apply: good_knot_points; rewrite // -size_knot_points.
  by rewrite initE // => -[<-].
- move=> kps s ts value s' t _ [gd ->] srt; rewrite appendE // => -[<- _].
  by split=> //; apply: good_append.
- by move=> kps s s' _ [gd ->]; rewrite copyE // => -[<-].
- move=> kps s C t i s' _ [gd ->] sg lay; have [i1 i2 _ _] := sg.
  rewrite (setCVE gd sg D0 lay (start_pos0 gd i1 i2)).
  by case: ifP => // _ [<-]; split=> //; apply: good_with.
- move=> kps s f g n t i s' _ [gd ->] sg H; have [i1 i2 _ _] := sg.
  rewrite (manipulateE gd _ _ _ sg) (start_pos0 gd i1 i2); case: ifP => // _.
  rewrite mreadOk (msteps gd (g := g)) // => -[<-].
  by split=> //; apply: good_with.
- move=> kps s c t i s' _ [gd ->] sg; rewrite (setLocalE gd _ _ sg).
  by case: ifP => // _ [<-]; split=> //; apply: good_with.
Qed.
End Access.
