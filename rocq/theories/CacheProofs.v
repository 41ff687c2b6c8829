(* Proofs about the node cache. *)
From mathcomp Require Import all_ssreflect.
From mathcomp.zify Require Import zify.
From Verif Require Import Prelude CacheModel CacheSpec.
Set Implicit Arguments.
Unset Strict Implicit.
Unset Printing Implicit Defensive.

Section Alloc.
Lemma free_loopP usage j :
  match free_loop usage j with
  | Some (usage', i) => [/\ j <= i < j + size usage, nth true usage (i - j) = false,
      forall k, k < i - j -> nth false usage k & usage' = set_nth false usage (i - j) true]
  | None => all id usage
  end.
Proof.
elim: usage j => [|u rest IH] j //=; case: u => /=; last first.
  by rewrite subnn leqnn /=; split=> //; lia.
have := IH j.+1; case: free_loop => // -[usage' i] [h1 h2 h3 ->].
have e : i - j = (i - j.+1).+1 by move: h1; clear; lia.
split; first by move: h1; clear; lia.
- by rewrite e.
- by move=> [|k] //= ; rewrite e ltnS => /h3.
- by rewrite e.
Qed.

Lemma nextFreeP usage : let: (usage', i) := getNextFreeIndex usage in
  [/\ nth false usage i = false, forall k, k < i -> nth false usage k
    & forall k, nth false usage' k = (k == i) || nth false usage k].
Proof.
rewrite /getNextFreeIndex; have := free_loopP usage 0.
case: free_loop => [[usage' i]|] /=.
  rewrite add0n subn0 => -[h1 h2 h3 ->]; split=> //.
    by rewrite (set_nth_default true).
  by move=> k; rewrite nth_set_nth /=; case: eqP.
move=> /allP h; rewrite size_rcons /=; split.
- by rewrite nth_default.
- by move=> k ks; apply: h; rewrite mem_nth.
- move=> k; rewrite nth_rcons; case: ltngtP => // ks; by rewrite nth_default // ltnW.
Qed.
End Alloc.

Section Run.
Variables (V : Type) (def : V).
Implicit Types (h : seq (op V)) (c : cache V).

Lemma registered_rcons h o :
  registered (rcons h o) = registered h + (if o is Register _ then 1 else 0).
Proof. by elim: h => [|o' h IH] //=; rewrite ?addn0 // IH addnA. Qed.
Lemma freed_rcons h o id :
  freed (rcons h o) id = freed h id || (if o is Free i then i == id else false).
Proof. by elim: h => [|o' h IH] //=; rewrite ?orbF // IH orbA. Qed.
Lemma accesses_rcons P node h o : accesses P node (rcons h o) =
  if (if access o is Some (id, n) then P id && (n == node) else false)
  then rcons (accesses P node h) o else accesses P node h.
Proof. by rewrite /accesses filter_rcons. Qed.
Lemma cell_rcons ops (o : op V) : cell_after def (rcons ops o) = cell_step (cell_after def ops) o.
Proof. by rewrite /cell_after -cats1 foldl_cat. Qed.

(* accesses only through slots registered before *)
Definition accesses_ok h := forall o id n, List.In o h -> access o = Some (id, n) -> id < registered h.

Definition same (idx : seq nat) (i : nat) : pred nat := fun id => nth 0 idx id == i.

Record Inv h (idx : seq nat) c : Prop := {
  inv_size : size (slots c) = registered h;
  inv_idx : size idx = registered h;
  inv_live : forall id, isSome (nth None (slots c) id) = live h id;
  inv_index : forall id s, nth None (slots c) id = Some s -> s_index s = nth 0 idx id;
  inv_freed : forall id, freed h id -> id < registered h;
  inv_used : forall i, nth false (slotUsage c) i =
     (i \in [seq nth 0 idx id | id <- iota 0 (size idx) & live h id]);
  inv_uniq : forall id id', live h id -> live h id' -> nth 0 idx id = nth 0 idx id' -> id = id';
  inv_acc : forall o id n, List.In o h -> access o = Some (id, n) -> id < registered h;
  inv_cell : forall node i,
    if nth None (nodes c node) i is Some e
    then (e_value e, e_valid e) = cell_after def (accesses (same idx i) node h)
    else accesses (same idx i) node h = [::];
  inv_touched : forall node i, nth None (nodes c node) i -> has (touches node) h
}.

Lemma Inv_init : Inv [::] [::] (init V).
Proof.
split=> //=.
- by move=> id; rewrite nth_nil.
- by move=> id s; rewrite nth_nil.
- by move=> i; rewrite nth_nil.
- by move=> node i; rewrite nth_nil.
- by move=> node i; rewrite nth_nil.
Qed.

Lemma accesses_ext P P' node h : (forall o id n, List.In o h -> access o = Some (id, n) -> P id = P' id) ->
  accesses P node h = accesses P' node h.
Proof.
rewrite /accesses; elim: h => //= o h IH e; rewrite IH; last by move=> o' id n oh; apply: (e o'); right.
case E : (access o) => [[id n]|] //; by rewrite (e o id n _ E) //; left.
Qed.

Lemma in_rcons h o o' : List.In o' (rcons h o) -> List.In o' h \/ o' = o.
Proof. by elim: h => [|x h IH] /= [] // e; [right|left; left|case: (IH e); auto]. Qed.

(* Register *)
Lemma Inv_register h idx c ty : Inv h idx c ->
  exists i c', [/\ step def c (Register V ty) = Ok (c', None),
    least_free [seq nth 0 idx id | id <- iota 0 (size idx) & live h id] i
    & Inv (rcons h (Register V ty)) (rcons idx i) c'].
Proof.
move=> H; rewrite /= ; have := nextFreeP (slotUsage c).
case: getNextFreeIndex => usage i [u1 u2 u3]; exists i; eexists; split; first by [].
  split; first by rewrite -(inv_used H) u1.
  by move=> j ji; rewrite -(inv_used H) u2.
have lv id : live (rcons h (Register V ty)) id = (id == registered h) || live h id.
  rewrite /live registered_rcons freed_rcons orbF addn1 ltnS leq_eqVlt.
  case: (eqVneq id (registered h)) => [->|_] //=.
  by case E : freed => //; have := inv_freed H E; rewrite ltnn.
have nt id : live h id -> nth 0 (rcons idx i) id = nth 0 idx id.
  by case/andP => l _; rewrite nth_rcons (inv_idx H) l.
have ni : nth 0 (rcons idx i) (registered h) = i by rewrite nth_rcons (inv_idx H) ltnn eqxx.
have fresh id : live h id -> nth 0 idx id <> i.
  move=> l e; have := u1; rewrite (inv_used H) => /negP; apply; apply/mapP; exists id => //.
  by rewrite mem_filter l mem_iota /= add0n (inv_idx H); case/andP: l.
split=> //=.
- by rewrite size_rcons (inv_size H) registered_rcons addn1.
- by rewrite size_rcons (inv_idx H) registered_rcons addn1.
- move=> id; rewrite nth_rcons (inv_size H) lv -(inv_live H) orbC; case: ltngtP => //.
  + by rewrite orbF.
  + by move=> l; rewrite nth_default // (inv_size H) ltnW.
  + by rewrite orbT.
- move=> id s; rewrite !nth_rcons (inv_size H) (inv_idx H); case: ltngtP => //.
  + by move=> _; apply: (inv_index H).
  + by move=> _ [<-].
- by move=> id; rewrite freed_rcons orbF registered_rcons => /(inv_freed H) l; rewrite ltn_addr.
- move=> k; rewrite u3 (inv_used H) size_rcons (inv_idx H) -addn1 iotaD filter_cat map_cat.
  rewrite mem_cat /= add0n lv eqxx /= mem_seq1 ni orbC; congr (_ || _).
  apply/mapP/mapP => -[id]; rewrite mem_filter mem_iota /= add0n => /andP[l1 l2] ->;
    exists id; rewrite ?mem_filter ?mem_iota ?l2 ?lv ?l1 ?orbT ?nt //.
  + by move: l1; rewrite lv; case: eqP => [e|_ /= -> //]; move: l2; rewrite e ltnn.
  + by move: l1; rewrite lv; case: eqP => [e|_ /= -> //]; move: l2; rewrite e ltnn.
- move=> id id'; rewrite !lv => /orP[/eqP->|l] /orP[/eqP->|l'] //; rewrite ?ni ?nt //.
  + by move=> e; case: (fresh _ l').
  + by move=> e; case: (fresh _ l).
  + exact: (inv_uniq H).
- move=> o id n; rewrite registered_rcons => /in_rcons[oh e|-> //].
  by rewrite ltn_addr // (inv_acc H oh e).
- move=> node k; rewrite accesses_rcons /=.
  have -> : accesses (same (rcons idx i) k) node h = accesses (same idx k) node h.
    apply: accesses_ext => o id n oh e; rewrite /same nth_rcons (inv_idx H).
    by rewrite (inv_acc H oh e).
  exact: (inv_cell H).
- by move=> node k /(inv_touched H) t; rewrite has_rcons t orbT.
Qed.

Lemma Inv_free h idx c id c' a : Inv h idx c -> step def c (Free V id) = Ok (c', a) ->
  a = None /\ Inv (rcons h (Free V id)) idx c'.
Proof.
move=> H /=; rewrite /the_slot; case E : (nth None (slots c) id) => [s|] //=.
rewrite /freeIndex /ub_unless; case: ifP => // su [<- <-]; split=> //.
have l : live h id by rewrite -(inv_live H) E.
have lr : id < registered h by case/andP: l.
have lv id' : live (rcons h (Free V id)) id' = live h id' && (id' != id).
  by rewrite /live registered_rcons addn0 freed_rcons negb_or andbA [id == _]eq_sym.
have es : s_index s = nth 0 idx id by apply: (inv_index H).
split=> //=.
- by rewrite size_set_nth registered_rcons addn0 (inv_size H); apply/maxn_idPr.
- by rewrite registered_rcons addn0 (inv_idx H).
- move=> id'; rewrite nth_set_nth /= lv -(inv_live H); case: eqP => [->|] /=;
  by rewrite ?andbF ?andbT.
- move=> id' s'; rewrite nth_set_nth /=; case: eqP => // _; exact: (inv_index H).
- move=> id'; rewrite freed_rcons registered_rcons addn0 => /orP[/(inv_freed H)//|/eqP <- //].
- move=> k; rewrite nth_set_nth /= (inv_used H); case: eqP => [->|nk].
    apply/esym/negbTE/negP => /mapP[id']; rewrite mem_filter lv => /andP[/andP[l' n'] _] e.
    by case/eqP: n'; apply: (inv_uniq H) => //; rewrite -e es.
  apply/mapP/mapP => -[id']; rewrite mem_filter ?lv => /andP[l1 l2] e; exists id'; rewrite // mem_filter l2 ?lv.
    by rewrite l1 andbT; apply/eqP => e'; case: nk; rewrite e e' es.
  by case/andP: l1 => ->.
- by move=> i1 i2; rewrite !lv => /andP[l1 _] /andP[l2 _]; apply: (inv_uniq H).
- move=> o i1 n; rewrite registered_rcons addn0 => /in_rcons[oh e|-> //].
  exact: (inv_acc H oh e).
- by move=> node k; rewrite accesses_rcons /=; apply: (inv_cell H).
- by move=> node k /(inv_touched H) t; rewrite has_rcons t orbT.
Qed.

(* accesses *)
Lemma getEntry_nth (es : perNode V) i k : nth None (getEntry es i) k = nth None es k.
Proof.
rewrite /getEntry; case: ifP => // h; rewrite nth_cat; case: ltnP => // k1.
by rewrite nth_nseq if_same nth_default.
Qed.

Lemma getEntry_size (es : perNode V) i : i < size (getEntry es i).
Proof.
rewrite /getEntry; case: ifP => [h|]; last by rewrite leqNgt => /negbFE.
by rewrite size_cat size_nseq subnKC // ltnW.
Qed.

Lemma on_entryP h idx c id node f o c' v : Inv h idx c ->
  (forall e, (e_value (f e), e_valid (f e)) = cell_step (e_value e, e_valid e) o) ->
  access o = Some (id, node) -> (if o is Free _ then false else if o is Register _ then false else true) ->
  on_entry def c id node f = Ok (c', v) ->
  Inv (rcons h o) idx c' /\
  v = (cell_after def (accesses (same idx (nth 0 idx id)) node (rcons h o))).1.
Proof.
move=> H fs ao ot; rewrite /on_entry /the_slot; case E : (nth None (slots c) id) => [s|] //=.
have l : live h id by rewrite -(inv_live H) E.
have lr : id < registered h by case/andP: l.
have es : s_index s = nth 0 idx id by apply: (inv_index H).
rewrite /accessNodeCache getEntry_size [ub_unless true _]/=; set es1 := getEntry _ _.
have [e0 [he es2E]] : exists e0 : entry V,
  (e_value e0, e_valid e0) = cell_after def (accesses (same idx (s_index s)) node h) /\
  let es2 := (if nth None es1 (s_index s) is None
    then set_nth None es1 (s_index s) (Some (Entry (s_type s) def false)) else es1) in
  nth None es2 (s_index s) = Some e0 /\
  (forall k, k <> s_index s -> nth None es2 k = nth None (nodes c node) k).
  have := inv_cell H node (s_index s).
  case E1 : (nth None es1 (s_index s)) => [e|]; rewrite /es1 getEntry_nth in E1; rewrite E1.
    move=> he; exists e; split=> //=; rewrite getEntry_nth E1; split=> // k _.
    by rewrite getEntry_nth.
  move=> ->; exists (Entry (s_type s) def false); split=> //=; split.
    by rewrite nth_set_nth /= eqxx.
  by move=> k /eqP/negbTE nk; rewrite nth_set_nth /= nk getEntry_nth.
move: es2E => /=; set es2 := (X in nth None X _); move=> [e2 rest2].
rewrite e2 /ub_unless; case: ifP => //= _ [<- <-].
have rg : registered (rcons h o) = registered h.
  by rewrite registered_rcons; case: (o) ot => // *; rewrite addn0.
have fr id' : freed (rcons h o) id' = freed h id'.
  by rewrite freed_rcons; case: (o) ot => // *; rewrite orbF.
have lv id' : live (rcons h o) id' = live h id' by rewrite /live rg fr.
have newcell : (e_value (f e0), e_valid (f e0)) =
  cell_after def (accesses (same idx (nth 0 idx id)) node (rcons h o)).
  by rewrite fs he accesses_rcons ao /same !eqxx /= cell_rcons es.
split; last by rewrite -newcell.
split=> //=.
- by rewrite (inv_size H).
- by rewrite (inv_idx H).
- by move=> id'; rewrite lv (inv_live H).
- exact: (inv_index H).
- by move=> id'; rewrite fr rg; apply: (inv_freed H).
- move=> i; rewrite (inv_used H); congr (_ \in map _ _); apply: eq_filter => id'; by rewrite lv.
- move=> i1 i2; rewrite !lv; exact: (inv_uniq H).
- move=> o' i1 n; rewrite rg => /in_rcons[oh e|->]; first exact: (inv_acc H oh e).
  by rewrite ao => -[<- _].
- move=> node' k; rewrite accesses_rcons ao /upd [node == _]eq_sym.
  case: eqP => [->|nn]; last by rewrite andbF; apply: (inv_cell H).
  rewrite nth_set_nth /= andbT; case: (eqVneq k (s_index s)) => [->|nk].
    by rewrite /same es eqxx cell_rcons fs he es.
  rewrite /same -es eq_sym (negbTE nk) rest2; last exact/eqP.
  exact: (inv_cell H).
- move=> node' k; rewrite has_rcons /touches ao /upd [node == _]eq_sym.
  by case: eqP => //= _; exact: (inv_touched H).
Qed.

(* the answer expected from the last operation of a history *)
Definition answer (idx : seq nat) h (o : op V) : option V :=
  match o with
  | Read id node | Get id node _ =>
    Some (cell_after def (accesses (same idx (nth 0 idx id)) node (rcons h o))).1
  | _ => None
  end.

Lemma Inv_step h idx c o c' a : Inv h idx c -> step def c o = Ok (c', a) ->
  exists idx', [/\ Inv (rcons h o) idx' c', a = answer idx' h o &
    if o is Register _ then exists i, idx' = rcons idx i /\
      least_free [seq nth 0 idx id | id <- iota 0 (size idx) & live h id] i
    else idx' = idx].
Proof.
move=> H; case: o => [ty|id|id node v|id node|id node b|id node u].
- have [i [c1 [e lf H']]] := Inv_register ty H; rewrite e => -[<- <-].
  by exists (rcons idx i); split=> //; exists i.
- by move=> /(Inv_free H)[-> H']; exists idx.
- rewrite /=; case E : on_entry => [[c1 v1]| |] //= -[<- <-]; exists idx; split=> //.
  by have [] := on_entryP H _ _ _ E (o := Store id node v).
- rewrite /=; case E : on_entry => [[c1 v1]| |] //= -[<- <-]; exists idx.
  by have [//|//|//|? ->] := on_entryP H _ _ _ E (o := Read V id node).
- rewrite /=; case E : on_entry => [[c1 v1]| |] //= -[<- <-]; exists idx; split=> //.
  by have [] := on_entryP H _ _ _ E (o := SetValid V id node b).
- rewrite /=; case E : on_entry => [[c1 v1]| |] //= -[<- <-]; exists idx.
  have [||//|? ->] := on_entryP H _ _ _ E (o := Get id node u) => //.
  by move=> e /=; case: ifP; case: e_valid.
Qed.

Lemma eq_in_filter_List (P P' : pred (op V)) h :
  (forall o, List.In o h -> P o = P' o) -> filter P h = filter P' h.
Proof.
elim: h => //= o h IH e; rewrite (e o) ?IH //; [by move=> o' oh; apply: e; right|by left].
Qed.

(* histories *)
Lemma Inv_run ops h idx c c' ans : Inv h idx c -> run_from def c ops = Ok (c', ans) ->
  exists idx', [/\ Inv (h ++ ops) idx' c', indices_from h ops idx idx', size ans = size ops,
    take (size idx) idx' = idx &
    forall k o, k < size ops -> nth None (map some ops) k = Some o ->
      nth None ans k = answer idx' (h ++ take k ops) o].
Proof.
elim: ops h idx c c' ans => [|o ops IH] h idx c c' ans H /=.
  by move=> [<- <-]; exists idx; rewrite cats0 take_size; split=> //.
case E : step => [[c1 a]| |] //=; case E' : run_from => [[c2 as']| |] //= -[<- <-].
have [idx1 [H1 ea es]] := Inv_step H E.
have [idx' [H2 ix sz tk an]] := IH _ _ _ _ _ H1 E'.
have tk' : take (size idx) idx' = idx.
  have : take (size idx) idx1 = idx.
    case: (o) es => [ty|id|id node v|id node|id node b|id node u] es; last by rewrite es take_size.
    - by case: es => i [-> _]; rewrite -cats1 take_size_cat.
    - by rewrite es take_size.
    - by rewrite es take_size.
    - by rewrite es take_size.
    - by rewrite es take_size.
  rewrite -{1}tk take_take //.
  by case: (o) es => [ty [i [-> _]]|? ->|? ? ? ->|? ? ->|? ? ? ->|? ? ? ->] //; rewrite size_rcons.
exists idx'; split=> //.
- by rewrite -cat_rcons.
- case: (o) es ix => [ty [i [e lf]]|id e|id node v e|id node e|id node b e|id node u e] ix;
    rewrite e in ix => //.
  by exists i.
- by rewrite /= sz.
move=> [|k] o' /=; last first.
  by rewrite ltnS => ko e; rewrite (an k o' ko e) cat_rcons.
move=> _ [<-]; rewrite cats0 ea.
have nn id : id < registered (rcons h o) -> nth 0 idx1 id = nth 0 idx' id.
  by move=> l; rewrite -{1}tk nth_take // (inv_idx H1).
have ext id node : id < registered (rcons h o) ->
  accesses (same idx1 (nth 0 idx1 id)) node (rcons h o) =
  accesses (same idx' (nth 0 idx' id)) node (rcons h o).
  move=> l; apply: accesses_ext => o1 id1 n1 oh e.
  by rewrite /same !nn // (inv_acc H1 oh e).
have last_in : List.In o (rcons h o).
  by elim: (h) => [|x h' IH'] /=; [left|right].
by case: (o) ext last_in (inv_acc H1) => // [id node|id node u] ext li acc /=;
   rewrite ext //; apply: (acc _ _ _ li).
Qed.

Lemma main_run ops c ans : run def ops = Ok (c, ans) -> exists idx,
  [/\ indices ops idx, Inv ops idx c, size ans = size ops &
    forall k o, k < size ops -> nth None (map some ops) k = Some o ->
      nth None ans k = answer idx (take k ops) o].
Proof.
by move=> /(Inv_run Inv_init)[idx [H i sz _ an]]; exists idx; split.
Qed.

Lemma main_unique ops c ans id id' s s' : run def ops = Ok (c, ans) ->
  nth None (slots c) id = Some s -> nth None (slots c) id' = Some s' ->
  s_index s = s_index s' -> id = id'.
Proof.
move=> /main_run[idx [_ H _ _]] e e'.
rewrite (inv_index H e) (inv_index H e'); apply: (inv_uniq H).
  by rewrite -(inv_live H) e.
by rewrite -(inv_live H) e'.
Qed.
Lemma main_live ops c ans id : run def ops = Ok (c, ans) ->
  isSome (nth None (slots c) id) = live ops id.
Proof. by move=> /main_run[idx [_ H _ _]]; apply: (inv_live H). Qed.
Lemma main_usage ops c ans i : run def ops = Ok (c, ans) ->
  nth false (slotUsage c) i <->
  exists id s, nth None (slots c) id = Some s /\ s_index s = i.
Proof.
move=> /main_run[idx [_ H _ _]]; rewrite (inv_used H); split.
  case/mapP => id; rewrite mem_filter -(inv_live H) => /andP[].
  by case E : nth => [s|] // _ _ ->; exists id, s; split=> //; apply: (inv_index H).
move=> [id [s [e <-]]]; rewrite (inv_index H e); apply/mapP; exists id => //.
have l : live ops id by rewrite -(inv_live H) e.
by rewrite mem_filter l mem_iota /= add0n (inv_idx H); case/andP: l.
Qed.
Lemma main_destroy ops c ans : run def ops = Ok (c, ans) ->
  destroy c = Ok tt <-> forall id, ~~ live ops id.
Proof.
move=> r; have /main_run[idx [_ H _ _]] := r; rewrite /destroy; case: ifP => hs; split=> //.
  move=> nl; case/hasP: hs => u us u1; move/(nthP false): us => [i isz e].
  have : nth false (slotUsage c) i by rewrite e.
  rewrite (main_usage _ r) => -[id [s [e' _]]].
  by have := nl id; rewrite -(inv_live H) e'.
move=> _ id; apply/negP => l; move/negP: hs; apply.
have : isSome (nth None (slots c) id) by rewrite (inv_live H).
case E : nth => [s|] // _.
have u : nth false (slotUsage c) (s_index s) by rewrite (main_usage _ r); exists id, s.
apply/hasP; exists true => //; rewrite -u mem_nth //.
by case: ltnP u => // l'; rewrite nth_default.
Qed.
Lemma hasP_List (p : pred (op V)) h : has p h -> exists2 o, List.In o h & p o.
Proof.
elim: h => //= o h IH /orP[po|/IH[o' oh po]]; first by exists o => //; left.
by exists o' => //; right.
Qed.
Lemma main_destroyNode ops c ans node : run def ops = Ok (c, ans) ->
  destroyNode c node = if has (touches node) ops then UB else Ok tt.
Proof.
move=> /main_run[idx [_ H _ _]]; rewrite /destroyNode.
have -> : has isSome (nodes c node) = has (touches node) ops; last by [].
apply/idP/idP.
  move=> /(has_nthP None)[i _]; exact: (inv_touched H).
move=> /hasP_List[o oh]; rewrite /touches; case ao : (access o) => [[id n]|] // /eqP en.
rewrite {}en in ao.
have := inv_cell H node (nth 0 idx id); case E : nth => [e|] => [_|].
  apply/(has_nthP None); exists (nth 0 idx id); last by rewrite E.
  by case: ltnP E => // l; rewrite nth_default.
have : List.In o (accesses (same idx (nth 0 idx id)) node ops).
  rewrite /accesses; elim: (ops) oh => //= o1 os IH [e|/IH].
    by rewrite e ao /same !eqxx /=; left.
  by case: ifP => //=; right.
by move=> + e0; rewrite e0.
Qed.

(* values *)
Lemma main_values ops c ans : run def ops = Ok (c, ans) -> exists idx, indices ops idx /\
  forall k id node, 
    (nth None (map some ops) k = Some (Read V id node) \/
     exists u, nth None (map some ops) k = Some (Get id node u)) ->
    nth None ans k =
    Some (cell_after def (accesses (fun id' => nth 0 idx id' == nth 0 idx id) node
                            (take k.+1 ops))).1.
Proof.
move=> /main_run[idx [i H sz an]]; exists idx; split=> // k id node ho.
have [o eo] : exists o, nth None (map some ops) k = Some o by case: ho => [->|[u ->]]; eexists.
have ks : k < size ops.
  by case: ltnP eo => // l; rewrite nth_default // size_map.
have tk : take k.+1 ops = rcons (take k ops) o.
  rewrite (take_nth o) //; congr rcons.
  by move: eo; rewrite (nth_map o) // => -[].
rewrite (an k o ks eo) tk.
by move: ho; rewrite eo => -[[->]|[u [->]]].
Qed.
Lemma main_fresh ops c ans : run def ops = Ok (c, ans) -> exists idx, indices ops idx /\
  forall k id node,
    (nth None (map some ops) k = Some (Read V id node) \/
     exists u, nth None (map some ops) k = Some (Get id node u)) ->
    (forall o id', List.In o (take k ops) -> access o = Some (id', node) ->
       nth 0 idx id' = nth 0 idx id -> id' = id) ->
    nth None ans k = Some (cell_after def (accesses (pred1 id) node (take k.+1 ops))).1.
Proof.
move=> r; have [idx [i H]] := main_values r; exists idx; split=> // k id node ho own.
rewrite (H _ _ _ ho); congr (Some (cell_after _ _).1).
have [o eo] : exists o, nth None (map some ops) k = Some o by case: ho => [->|[u ->]]; eexists.
have ks : k < size ops.
  by case: ltnP eo => // l; rewrite nth_default // size_map.
have tk : take k.+1 ops = rcons (take k ops) o.
  rewrite (take_nth o) //; congr rcons.
  by move: eo; rewrite (nth_map o) // => -[].
have E : accesses (fun id' => nth 0 idx id' == nth 0 idx id) node (take k ops) =
  accesses (pred1 id) node (take k ops).
  rewrite /accesses; apply: eq_in_filter_List => o1 oh.
  case ao : access => [[id1 n1]|] //=; case: (eqVneq n1 node) => [e|]; rewrite ?andbF ?andbT //.
  by rewrite e in ao; apply/eqP/eqP => [/(own o1 id1 oh ao)->//|->//].
rewrite tk !accesses_rcons E.
case ao : access => [[id1 n1]|] //.
have -> : id1 = id by move: ho; rewrite eo => -[[e]|[u [e]]]; move: ao; rewrite e /= => -[].
by rewrite /= !eqxx.
Qed.

Lemma in_take (A : Type) (x : A) k l : List.In x (take k l) -> List.In x l.
Proof. by elim: l k => [|y l IH] [|k] //= [->|/IH]; [left|right]. Qed.
Lemma in_nth h k o : nth None (map some h) k = Some o -> List.In o h.
Proof. by elim: h k => [|x h IH] [|k] //= ; [move=> [->]; left|move=> /IH; right]. Qed.
Lemma main_fresh_never_freed ops c ans : run def ops = Ok (c, ans) ->
  (forall id, ~~ freed ops id) ->
  forall k id node,
    (nth None (map some ops) k = Some (Read V id node) \/
     exists u, nth None (map some ops) k = Some (Get id node u)) ->
    nth None ans k = Some (cell_after def (accesses (pred1 id) node (take k.+1 ops))).1.
Proof.
move=> r nf k id node ho.
have [idx [i H sz an]] := main_run r.
have lv j : j < registered ops -> live ops j by rewrite /live nf andbT.
have idr : id < registered ops.
  by case: ho => [/in_nth|[u /in_nth]] oh; apply: (inv_acc H oh (n := node)).
have [o eo] : exists o, nth None (map some ops) k = Some o by case: ho => [->|[u ->]]; eexists.
have ks : k < size ops.
  by case: ltnP eo => // l; rewrite nth_default // size_map.
have tk : take k.+1 ops = rcons (take k ops) o.
  rewrite (take_nth o) //; congr rcons.
  by move: eo; rewrite (nth_map o) // => -[].
have ea : answer idx (take k ops) o =
  Some (cell_after def (accesses (same idx (nth 0 idx id)) node (take k.+1 ops))).1.
  by rewrite tk; move: ho; rewrite eo => -[[->]|[u [->]]].
rewrite (an k o ks eo) ea; congr (Some (cell_after _ _).1).
apply: accesses_ext => o1 id1 n1 oh0 ao; have oh := in_take oh0; rewrite /same /=.
apply/eqP/eqP => [|->//] e; apply: (inv_uniq H) => //; apply: lv => //.
exact: (inv_acc H oh ao).
Qed.

(* nothing goes wrong in programs that use live slots of one type *)
Definition typed ty c : Prop :=
  (forall id s, nth None (slots c) id = Some s -> s_type s = ty) /\
  (forall node i e, nth None (nodes c node) i = Some e -> e_type e = ty).

Lemma typed_entry ty c h idx id node f : typed ty c -> Inv h idx c -> live h id ->
  (forall e, e_type (f e) = e_type e) ->
  exists c' v, on_entry def c id node f = Ok (c', v) /\ typed ty c'.
Proof.
move=> [ts tn] H l fe; rewrite /on_entry /the_slot.
have : isSome (nth None (slots c) id) by rewrite (inv_live H).
case E : nth => [s|] // _ /=.
rewrite /accessNodeCache getEntry_size [ub_unless true _]/=; set es1 := getEntry _ _.
have st := ts _ _ E.
have [e0 [e2 [et tr]]] : exists e0 : entry V, let es2 := (if nth None es1 (s_index s) is None
    then set_nth None es1 (s_index s) (Some (Entry (s_type s) def false)) else es1) in
  nth None es2 (s_index s) = Some e0 /\ e_type e0 = ty /\
  (forall k e, nth None es2 k = Some e -> e_type e = ty).
  case E1 : (nth None es1 (s_index s)) => [e|].
    exists e; split=> //; split.
      by move: E1; rewrite /es1 getEntry_nth => /tn.
    by move=> k e'; rewrite /es1 getEntry_nth => /tn.
  exists (Entry (s_type s) def false); split; first by rewrite nth_set_nth /= eqxx.
  split=> // k e; rewrite nth_set_nth /=; case: eqP => [_ [<-]//|_].
  by rewrite /es1 getEntry_nth => /tn.
move: e2 tr => /=; set es2 := (X in nth None X _); move=> e2 tr.
rewrite e2 et st /ub_unless eqxx /=; do 2!eexists; split; first by [].
split=> //= node' i e; rewrite /upd; case: eqP => // _; last exact: tn.
rewrite nth_set_nth /=; case: eqP => [_ [<-]|_ hk]; [by rewrite fe|apply: (tr i); by rewrite -hk /es2 st].
Qed.

Lemma total_run ty ops h idx c : Inv h idx c -> typed ty c -> uses_live_from ty h ops ->
  exists c' ans, run_from def c ops = Ok (c', ans).
Proof.
elim: ops h idx c => [|o ops IH] h idx c H t /=; first by do 2!eexists.
move=> /andP[ho wf].
have [c1 [a [e t1]]] : exists c1 a, step def c o = Ok (c1, a) /\ typed ty c1.
  case: o ho {wf} => [t'|id|id node v|id node|id node b|id node u] ho /=.
  - case: getNextFreeIndex => usage i; do 2!eexists; split; first by [].
    case: t => t1 t2; split=> //= id s; rewrite nth_rcons; case: ifP => _; first exact: t1.
    by case: ifP => // _ [<-] /=; apply/eqP.
  - rewrite /the_slot; have : isSome (nth None (slots c) id) by rewrite (inv_live H).
    case E : nth => [s|] // _ /=.
    have u : nth false (slotUsage c) (s_index s).
      rewrite (inv_used H) (inv_index H E); apply/mapP; exists id => //.
      by rewrite mem_filter ho mem_iota /= add0n (inv_idx H); case/andP: ho.
    have sz : s_index s < size (slotUsage c).
      by case: ltnP u => // l'; rewrite nth_default.
    rewrite /freeIndex sz /=; do 2!eexists; split; first by [].
    case: t => t1 t2; split=> //= id' s'; rewrite nth_set_nth /=; case: eqP => // _; exact: t1.
  - have [|c' [v' [-> t']]] := typed_entry node t H ho (f := fun e => Entry (e_type e) v (e_valid e)) => //.
    by do 2!eexists.
  - by have [|c' [v' [-> t']]] := typed_entry node t H ho (f := fun e => e) => //; do 2!eexists.
  - have [|c' [v' [-> t']]] := typed_entry node t H ho (f := fun e => Entry (e_type e) (e_value e) b) => //.
    by do 2!eexists.
  - have [|c' [v' [-> t']]] := typed_entry node t H ho
      (f := fun e => if ~~ e_valid e then Entry (e_type e) u true else e) => //.
      by move=> e; case: ifP.
    by do 2!eexists.
have [idx1 [H1 _ _]] := Inv_step H e.
have [c2 [as' e']] := IH _ _ _ H1 t1 wf.
by rewrite e /= e' /=; do 2!eexists.
Qed.
Lemma main_total ty ops : uses_live ty ops -> exists c ans, run def ops = Ok (c, ans).
Proof.
apply: (total_run (idx := [::])); first exact: Inv_init.
by split=> [id s|node i e] /=; rewrite nth_nil.
Qed.
End Run.
