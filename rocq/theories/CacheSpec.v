(* What a node cache is expected to do, in terms of the history of operations only. *)
From mathcomp Require Import all_ssreflect.
From Verif Require Import Prelude CacheModel.
Set Implicit Arguments.
Unset Strict Implicit.
Unset Printing Implicit Defensive.

Section Spec.
Variables (V : Type) (def : V).
Implicit Types (h : seq (op V)).

(* number of registrations *)
Fixpoint registered h : nat :=
  if h is o :: h' then (if o is Register _ then 1 else 0) + registered h' else 0.
Fixpoint freed h (id : nat) : bool :=
  if h is o :: h' then (if o is Free i then i == id else false) || freed h' id else false.
(* slot id has been registered and not destroyed *)
Definition live h (id : nat) : bool := (id < registered h) && ~~ freed h id.

(* least number that is not in the list *)
Definition least_free (used : seq nat) (i : nat) : Prop :=
  i \notin used /\ forall j, j < i -> j \in used.

(* index of every slot ever registered, each the least one that no slot then alive has *)
Fixpoint indices_from (h0 h : seq (op V)) (idx : seq nat) (res : seq nat) : Prop :=
  match h with
  | [::] => res = idx
  | o :: h' =>
    if o is Register _ then
      exists i, least_free [seq nth 0 idx id | id <- iota 0 (size idx) & live h0 id] i /\
        indices_from (rcons h0 o) h' (rcons idx i) res
    else indices_from (rcons h0 o) h' idx res
  end.
Definition indices h (res : seq nat) : Prop := indices_from [::] h [::] res.

(* value and validity after a sequence of operations on one cell *)
Definition cell_step (cell : V * bool) (o : op V) : V * bool :=
  match o with
  | Store _ _ v => (v, cell.2)
  | SetValid _ _ b => (cell.1, b)
  | Get _ _ u => if cell.2 then cell else (u, true)
  | _ => cell
  end.
Definition cell_after (ops : seq (op V)) : V * bool := foldl cell_step (def, false) ops.

(* slot and node of an access *)
Definition access (o : op V) : option (nat * nat) :=
  match o with
  | Store id n _ | Read id n | SetValid id n _ | Get id n _ => Some (id, n)
  | _ => None
  end.
(* the accesses of a node through slots with property P *)
Definition accesses (P : pred nat) (node : nat) h : seq (op V) :=
  [seq o <- h | if access o is Some (id, n) then P id && (n == node) else false].

(* an access of the node through any slot *)
Definition touches (node : nat) (o : op V) : bool :=
  if access o is Some (_, n) then n == node else false.

(* a program that uses live slots only and registers them all with the same type *)
Fixpoint uses_live_from (ty : nat) (h0 h : seq (op V)) : bool :=
  if h is o :: h' then
    match o with
    | Register t => t == ty
    | Free id => live h0 id
    | Store id _ _ | Read id _ | SetValid id _ _ | Get id _ _ => live h0 id
    end && uses_live_from ty (rcons h0 o) h'
  else true.
Definition uses_live (ty : nat) h : bool := uses_live_from ty [::] h.
End Spec.
