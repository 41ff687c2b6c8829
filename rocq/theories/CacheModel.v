(* Model of bsplines/include/bsplines/NodeDistributedCache.hpp (line numbers refer to it).
   Slots are named by the order of their registration (the shared_ptr objects), nodes and value
   types by numbers; values of all types live in one set V and [def] is what the constructor of
   PerNodeCacheValue (46) leaves in _value.  A slot dies when its last shared_ptr is dropped
   (operation Free); copying a shared_ptr has no effect here.  No proofs in this file. *)
From mathcomp Require Import all_ssreflect.
From Verif Require Import Prelude.
Set Implicit Arguments.
Unset Strict Implicit.
Unset Printing Implicit Defensive.

Section Cache.
Variables (V : Type) (def : V).

(* 43-70 PerNodeCacheValue<TValue>: the type TValue, _value, _valid *)
Record entry := Entry { e_type : nat; e_value : V; e_valid : bool }.
(* 88 PerNodeCache::entries, None is NULL *)
Definition perNode := seq (option entry).
(* 94-99 getEntry: the vector after the resize; new pointers are NULL *)
Definition getEntry (entries : perNode) (index : nat) : perNode :=
  if index >= size entries then entries ++ nseq (index.+1 - size entries) None else entries.

(* 102-109 NodeCacheSlot<TValue>: _index and the type TValue *)
Record slot := Slot { s_index : nat; s_type : nat }.
(* 134 slotUsage; the slots ever registered, None when destroyed; the caches of all nodes *)
Record cache := Cache { slotUsage : seq bool; slots : seq (option slot); nodes : nat -> perNode }.
Definition init : cache := Cache [::] [::] (fun _ => [::]).

(* 120-126 accessNodeCache: entries[index] (98) must exist; create the entry if there is none.  The static_cast of an entry
   that was created with another type is undefined behaviour. *)
Definition accessNodeCache (s : slot) (entries : perNode) : outcome (perNode * entry) :=
  let entries := getEntry entries (s_index s) in
  need (s_index s < size entries) ;
  let entries := if nth None entries (s_index s) is None
                 then set_nth None entries (s_index s) (Some (Entry (s_type s) def false))
                 else entries in
  if nth None entries (s_index s) is Some e then
    need e_type e == s_type s ; Ok (entries, e)
  else UB.

(* 135-146 getNextFreeIndex: the loop from position j on *)
Fixpoint free_loop (usage : seq bool) (j : nat) : option (seq bool * nat) :=
  match usage with
  | [::] => None
  | u :: rest =>
    if ~~ u then Some (true :: rest, j)
    else if free_loop rest j.+1 is Some (rest', i) then Some (u :: rest', i) else None
  end.
Definition getNextFreeIndex (usage : seq bool) : seq bool * nat :=
  match free_loop usage 0 with
  | Some r => r
  | None => let usage := rcons usage true in (usage, (size usage).-1)
  end.
(* 148-151 freeIndex (the debug assertion is compiled out) *)
Definition freeIndex (usage : seq bool) (i : nat) : outcome (seq bool) :=
  need (i < size usage) ; Ok (set_nth false usage i false).

(* what a program does: registerCacheableValue<ty> (129-132), drop the last reference to a slot
   (112-114), accessValue(node) = v (116-118), read accessValue(node), setValid(b) (68) and
   get(updater) (54-60) on accessNodeCache(node), where u is what the updater writes *)
Inductive op :=
  | Register of nat
  | Free of nat
  | Store of nat & nat & V
  | Read of nat & nat
  | SetValid of nat & nat & bool
  | Get of nat & nat & V.

(* a live slot *)
Definition the_slot (c : cache) (id : nat) : outcome slot :=
  if nth None (slots c) id is Some s then Ok s else UB.
(* change the entry of a slot at a node *)
Definition put_entry (c : cache) (node : nat) (entries : perNode) : cache :=
  Cache (slotUsage c) (slots c) (upd (nodes c) node entries).
(* the entry of a slot at a node is accessed and replaced *)
Definition on_entry (c : cache) (id node : nat) (f : entry -> entry) : outcome (cache * V) :=
  do s <- the_slot c id ;
  do ' (entries, e) <- accessNodeCache s (nodes c node) ;
  Ok (put_entry c node (set_nth None entries (s_index s) (Some (f e))), e_value (f e)).

(* one operation; the answer of Register is the index, of Read and Get the value *)
Definition step (c : cache) (o : op) : outcome (cache * option V) :=
  match o with
  | Register ty =>
    let: (usage, i) := getNextFreeIndex (slotUsage c) in
    Ok (Cache usage (rcons (slots c) (Some (Slot i ty))) (nodes c), None)
  | Free id =>
    do s <- the_slot c id ;
    do usage <- freeIndex (slotUsage c) (s_index s) ;
    Ok (Cache usage (set_nth None (slots c) id None) (nodes c), None)
  | Store id node v =>
    do ' (c', _) <- on_entry c id node (fun e => Entry (e_type e) v (e_valid e)) ;
    Ok (c', None)
  | Read id node =>
    do ' (c', v) <- on_entry c id node (fun e => e) ; Ok (c', Some v)
  | SetValid id node b =>
    do ' (c', _) <- on_entry c id node (fun e => Entry (e_type e) (e_value e) b) ;
    Ok (c', None)
  | Get id node u =>
    do ' (c', v) <- on_entry c id node
      (fun e => if ~~ e_valid e then Entry (e_type e) u true else e) ;
    Ok (c', Some v)
  end.
(* a program from the empty cache: final state and the answers *)
Fixpoint run_from (c : cache) (ops : seq op) : outcome (cache * seq (option V)) :=
  if ops is o :: rest then
    do ' (c', a) <- step c o ;
    do ' (c'', as') <- run_from c' rest ;
    Ok (c'', a :: as')
  else Ok (c, [::]).
Definition run (ops : seq op) := run_from init ops.

(* 153-157 destructor of the cache *)
Definition destroy (c : cache) : outcome unit :=
  if has id (slotUsage c) then Throw ExnRuntime else Ok tt.
(* 81-86 destructor of PerNodeCache (of the node): PerNodeCacheEntry has no virtual destructor
   (34-39), so that deleting an entry, which always has a derived type, through a pointer to it
   is undefined behaviour *)
Definition destroyNode (c : cache) (node : nat) : outcome unit :=
  if has isSome (nodes c node) then UB else Ok tt.
End Cache.
