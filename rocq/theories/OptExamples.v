(* Concrete optimisable splines for the examples. *)
From mathcomp Require Import all_ssreflect all_algebra.
From Verif Require Import Prelude DMModel DMSpec OptModel OptSpec OptProofs OptWorldProofs Examples.
Set Implicit Arguments.
Unset Strict Implicit.
Unset Printing Implicit Defensive.
Import GRing.Theory Num.Theory.
Local Open Scope ring_scope.

Notation oT := int_realDomainType.
Definition od : int -> Q := fun x => x%:~R.
Definition omf := euclidean Q 1.
Definition opt1 (a : int) : vec Q := fun r => if r == 0%N then a%:~R else 0.
Notation orun := (w_run (T := oT) od omf (@eu_update _)).
Notation ow0 := (w_new Q oT).
(* order 2, knots 0, 10, .., 40 and then 50 appended; a copy *)
Definition o_ops : seq (wop Q oT) :=
  [:: WNew Q oT 2; WAddVertex (T := oT) 0 0 (opt1 3); WAddVertex (T := oT) 0 20 (opt1 5);
   WAddVertex (T := oT) 0 10 (opt1 4); WAddVertex (T := oT) 0 30 (opt1 (-2));
   WInit Q oT 0; WAppend (T := oT) 0 [:: 40; 50] (Some (opt1 1)); WCopy Q oT 0].
Definition o_world : world Q oT := if orun ow0 o_ops is Ok w then w else ow0.
Lemma o_run : orun ow0 o_ops = Ok o_world.
Proof.
have : (if orun ow0 o_ops is Ok _ then true else false) by vm_compute.
by rewrite /o_world; case: (orun ow0 o_ops).
Qed.
Lemma o_plain : plain_run od omf (@eu_update _) ow0 o_ops.
Proof. by vm_compute. Qed.
Lemma o_reached : reached od omf (@eu_update _) o_world.
Proof. exact: reached_run (reached_new _ _ _) o_plain o_run. Qed.
Lemma o_alive : reached_alive od omf (@eu_update _) o_world.
Proof.
have H : forall cs w w', reached_alive od omf (@eu_update _) w ->
  plain_run od omf (@eu_update _) w cs -> all (fun c : wop Q oT => if c is WDestroy _ then false else true) cs ->
  orun w cs = Ok w' -> reached_alive od omf (@eu_update _) w'.
  elim=> [|c cs IH] w w' R /=; first by move=> _ _ [<-].
  case/andP=> pl; case e: (w_step _ _ _ _ _) => [w1||] //= h1 /andP[c1 c2] h2.
  exact: IH (alive_step R pl c1 e) h1 c2 h2.
by apply: H o_run; [exact: alive_new|exact: o_plain|vm_compute].
Qed.
Lemma o_facts : [&& size (w_objs o_world) == 2%N, ds_evaluable (op_sp (nth (opt0 Q oT) (w_objs o_world) 0)),
  ds_evaluable (op_sp (nth (opt0 Q oT) (w_objs o_world) 1)),
  ds_order (op_sp (nth (opt0 Q oT) (w_objs o_world) 1)) == 2%N &
  op_dvs (nth (opt0 Q oT) (w_objs o_world) 1) == [:: (3%N, 0); (3%N, 10); (3%N, 20); (3%N, 30)]].
Proof. by vm_compute. Qed.
