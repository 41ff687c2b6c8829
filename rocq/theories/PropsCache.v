(* Property C32: slots and values of the node cache. *)
From mathcomp Require Import all_ssreflect.
From Verif Require Import Prelude CacheModel CacheSpec CacheProofs.
Set Implicit Arguments.
Unset Strict Implicit.
Unset Printing Implicit Defensive.

(* two live slots never share an index *)
Theorem C32_unique : forall (V : Type) (def : V) ops c ans id id' s s',
  run def ops = Ok (c, ans) ->
  nth None (slots c) id = Some s -> nth None (slots c) id' = Some s' ->
  s_index s = s_index s' -> id = id'.
Proof. exact main_unique. Qed.
Print Assumptions C32_unique.

(* the slots alive are those registered and not destroyed; the usage flags are exactly theirs *)
Theorem C32_live : forall (V : Type) (def : V) ops c ans id, run def ops = Ok (c, ans) ->
  isSome (nth None (slots c) id) = live ops id.
Proof. exact main_live. Qed.
Print Assumptions C32_live.
Theorem C32_usage : forall (V : Type) (def : V) ops c ans i, run def ops = Ok (c, ans) ->
  nth false (slotUsage c) i <-> exists id s, nth None (slots c) id = Some s /\ s_index s = i.
Proof. exact main_usage. Qed.
Print Assumptions C32_usage.
(* the destructor of the cache throws exactly if a slot is alive *)
Theorem C32_destroy : forall (V : Type) (def : V) ops c ans, run def ops = Ok (c, ans) ->
  destroy c = Ok tt <-> forall id, ~~ live ops id.
Proof. exact main_destroy. Qed.
Print Assumptions C32_destroy.

(* indices are allocated as the least free ones, and a read gives the value left by all accesses
   of the node so far through slots with the same index - the exact behaviour *)
Theorem C32_values : forall (V : Type) (def : V) ops c ans, run def ops = Ok (c, ans) ->
  exists idx, indices ops idx /\
  forall k id node,
    (nth None (map some ops) k = Some (Read V id node) \/
     exists u, nth None (map some ops) k = Some (Get id node u)) ->
    nth None ans k =
    Some (cell_after def (accesses (fun id' => nth 0 idx id' == nth 0 idx id) node
                            (take k.+1 ops))).1.
Proof. exact main_values. Qed.
Print Assumptions C32_values.

(* so a value read was stored through the same slot, if no earlier slot with its index accessed
   the node; in particular if no slot was ever destroyed *)
Theorem C32_fresh_partial : forall (V : Type) (def : V) ops c ans, run def ops = Ok (c, ans) ->
  exists idx, indices ops idx /\
  forall k id node,
    (nth None (map some ops) k = Some (Read V id node) \/
     exists u, nth None (map some ops) k = Some (Get id node u)) ->
    (forall o id', List.In o (take k ops) -> access o = Some (id', node) ->
       nth 0 idx id' = nth 0 idx id -> id' = id) ->
    nth None ans k = Some (cell_after def (accesses (pred1 id) node (take k.+1 ops))).1.
Proof. exact main_fresh. Qed.
Print Assumptions C32_fresh_partial.
Theorem C32_fresh_never_freed : forall (V : Type) (def : V) ops c ans,
  run def ops = Ok (c, ans) -> (forall id, ~~ freed ops id) ->
  forall k id node,
    (nth None (map some ops) k = Some (Read V id node) \/
     exists u, nth None (map some ops) k = Some (Get id node u)) ->
    nth None ans k = Some (cell_after def (accesses (pred1 id) node (take k.+1 ops))).1.
Proof. exact main_fresh_never_freed. Qed.
Print Assumptions C32_fresh_never_freed.

(* in general it is not so: a new slot sees the value, and the validity, of a destroyed one *)
Theorem C32_stale_refuted : exists (ops : seq (op nat)) c ans k id node u,
  [/\ run 0 ops = Ok (c, ans), uses_live 0 ops,
      nth None (map some ops) k = Some (Get id node u),
      (cell_after 0 (accesses (pred1 id) node (take k.+1 ops))).1 = u
    & nth None ans k <> Some u].
Proof.
exists [:: Register nat 0; Get 0 7 5; Free nat 0; Register nat 0; Get 1 7 6].
by do 2!eexists; exists 4, 1, 7, 6.
Qed.
Print Assumptions C32_stale_refuted.
(* and with another type the access is undefined behaviour *)
Theorem C32_type_refuted : exists (ops : seq (op nat)) id node,
  (forall k, is_ok (run 0 (take k ops))) /\ live ops id /\
  run 0 (rcons ops (Read nat id node)) = UB.
Proof.
exists [:: Register nat 0; Store 0 7 5; Free nat 0; Register nat 1], 1, 7.
by split; [case=> [|[|[|[|k]]]]|split].
Qed.
Print Assumptions C32_type_refuted.

(* programs that only use live slots of one type always run *)
Theorem C32_total : forall (V : Type) (def : V) ty ops, uses_live ty ops ->
  exists c ans, run def ops = Ok (c, ans).
Proof. exact main_total. Qed.
Print Assumptions C32_total.

Definition ex_ops : seq (op nat) :=
  [:: Register nat 0; Register nat 0; Store 0 7 5; Store 1 7 6; Free nat 0; Register nat 0;
      Read nat 1 7; Read nat 2 8; Get 1 7 9; Get 1 7 10; SetValid nat 1 7 false; Get 1 7 11].
Example C32_example : uses_live 0 ex_ops &&
  (if run 0 ex_ops is Ok (c, ans)
   then (drop 6 ans == [:: Some 6; Some 0; Some 9; Some 9; None; Some 11]) &&
        (slotUsage c == [:: true; true]) && (map (omap (@s_index)) (slots c) == [:: None; Some 1; Some 0])
   else false).
Proof. by vm_compute. Qed.

(* ------------------------------------------------------------------ C63 *)
(* the destructor of a node that was accessed through any slot is undefined (the entries are
   deleted through a base class without virtual destructor); otherwise it returns *)
Theorem C63_destroy_node : forall (V : Type) (def : V) ops c ans node,
  run def ops = Ok (c, ans) ->
  destroyNode c node = if has (touches node) ops then UB else Ok tt.
Proof. exact main_destroyNode. Qed.
Print Assumptions C63_destroy_node.
Theorem C63_refuted : exists (ops : seq (op nat)) c ans node,
  [/\ run 0 ops = Ok (c, ans), uses_live 0 ops & destroyNode c node = UB].
Proof. by exists [:: Register nat 0; Read nat 0 7]; do 2!eexists; exists 7. Qed.
Print Assumptions C63_refuted.
Example C63_ex : exists c ans, [/\ run 0 [:: Register nat 0; Store 0 7 5] = Ok (c, ans),
  destroyNode c 7 = UB & destroyNode c 8 = Ok tt].
Proof.
have r : exists c ans, run 0 [:: Register nat 0; Store 0 7 5] = Ok (c, ans) by do 2!eexists.
have [c [ans e]] := r; exists c, ans; split=> //.
  by rewrite (C63_destroy_node 7 e).
by rewrite (C63_destroy_node 8 e).
Qed.
