(* Proofs about optimisable manifold splines: updates and reverts of design variables, and
   the variables a spline hands out. *)
From mathcomp Require Import all_ssreflect all_algebra.
From mathcomp.zify Require Import zify.
From Verif Require Import Prelude CoxDeBoor DMModel DMSpec DMProofs DMConstructProofs
  DMAppendProofs DMEvalProofs DMAccessProofs OptModel OptSpec.
Set Implicit Arguments.
Unset Strict Implicit.
Unset Printing Implicit Defensive.
Import GRing.Theory Num.Theory Order.Theory.
Local Open Scope ring_scope.
#[local] Arguments pos_of : simpl never.
#[local] Arguments canon : simpl never.

Section Vars.
Variables (F : realFieldType) (T : realDomainType).
Variables (dbl : T -> F) (mf : manifold F) (mf_update : vec F -> vec F -> vec F).
Notation world := (world F T).
Notation opt := (opt F T).
Notation ptr := (ptr T).
Notation wop := (wop F T).
Notation obj w a := (nth (opt0 F T) (w_objs w) a).
Notation step := (w_step dbl mf mf_update).
Notation run := (w_run dbl mf mf_update).
Implicit Types (w : world) (p q : ptr) (o : opt).

(* what a call on a design variable can change: the control vertex and the saved vertex *)
Definition same_shape w w' : Prop :=
  [/\ w_next w' = w_next w, size (w_objs w') = size (w_objs w) &
   forall a, [/\ op_id (obj w' a) = op_id (obj w a), op_map (obj w' a) = op_map (obj w a),
     op_owner (obj w' a) = op_owner (obj w a), op_dvs (obj w' a) = op_dvs (obj w a) &
     op_keys (obj w' a) = op_keys (obj w a)]].

Lemma keys_find (m m' : seq (seg F T)) t : map (@sg_knot F T) m' = map (@sg_knot F T) m ->
  find (fun x => sg_knot x == t) m' = find (fun x => sg_knot x == t) m.
Proof. by move=> e; rewrite !find_index e. Qed.
Lemma find_objs w w' (f : opt -> nat) x : size (w_objs w') = size (w_objs w) ->
  (forall a, f (obj w' a) = f (obj w a)) ->
  find (fun o => f o == x) (w_objs w') = find (fun o => f o == x) (w_objs w).
Proof.
move: (w_objs w') (w_objs w) => s' s; elim: s' s => [|y s' IH] [|z s] //= [es] H.
by rewrite (H 0%N) /= (IH s) // => a; exact: (H a.+1).
Qed.

Lemma shape_alive w w' id : same_shape w w' -> alive w' id = alive w id.
Proof.
case=> _ sz H; rewrite /alive /w_pos sz; congr (_ < _)%N.
by apply: find_objs => // a; case: (H a).
Qed.
Lemma shape_seg w w' p : same_shape w w' -> w_seg w' p = w_seg w p.
Proof.
case=> _ sz H; rewrite /w_seg sz.
have -> : find (fun o : opt => op_map o == p.1) (w_objs w') =
          find (fun o : opt => op_map o == p.1) (w_objs w).
  by apply: find_objs => // a; case: (H a).
set a := find _ _; have [_ _ _ _ ek] := H a.
rewrite (keys_find p.2 ek).
have -> : size (ds_segs (op_sp (obj w' a))) = size (ds_segs (op_sp (obj w a))).
  by rewrite -(size_map (@sg_knot F T)) -/(op_keys (obj w' a)) ek size_map.
by [].
Qed.
Lemma shape_usable w w' p : same_shape w w' -> usable w p -> usable w' p.
Proof.
move=> sh [a [i [h1 h2]]]; exists a, i; rewrite (shape_seg _ sh) (shape_alive _ sh).
by case: sh => _ _ /(_ a) [_ _ -> _ _].
Qed.
Lemma shape_refl w : same_shape w w. Proof. by []. Qed.
Lemma shape_trans w1 w2 w3 : same_shape w1 w2 -> same_shape w2 w3 -> same_shape w1 w3.
Proof.
case=> n1 s1 h1 [n2 s2 h2]; split; rewrite ?n2 ?s2 // => a.
by case: (h1 a) (h2 a) => ? ? ? ? ? [-> -> -> -> ->].
Qed.

Lemma w_seg_lt w p a i : w_seg w p = Ok (a, i) ->
  [/\ (a < size (w_objs w))%N, op_map (obj w a) = p.1, (i < size (ds_segs (op_sp (obj w a))))%N,
      knot_at (ds_segs (op_sp (obj w a))) i = p.2 &
      a = find (fun o => op_map o == p.1) (w_objs w) /\
      i = find (fun x => sg_knot x == p.2) (ds_segs (op_sp (obj w a)))].
Proof.
rewrite /w_seg /ub_unless; case: ifP => // h1; case: ifP => // h2 [<- <-]; split=> //.
  by apply/eqP; apply: (@nth_find _ (opt0 F T) (fun o => op_map o == p.1)); rewrite has_find.
by apply/eqP; apply: (@nth_find _ (seg0 F T) (fun x => sg_knot x == p.2)); rewrite has_find.
Qed.
Lemma w_seg_inj w p q a i : w_seg w p = Ok (a, i) -> w_seg w q = Ok (a, i) -> p = q.
Proof.
case: p => p1 p2; case: q => q1 q2.
by case/w_seg_lt => _ /= h1 _ h2 _ /w_seg_lt[_ /= h3 _ h4 _]; rewrite -h1 -h2 h3 h4.
Qed.

Lemma obj_set w a o b : (a < size (w_objs w))%N ->
  obj (w_set w a o) b = if b == a then o else obj w b.
Proof. by move=> h; rewrite /w_set /= nth_set_nth /=. Qed.
Lemma shape_vertex w p a i sv v : w_seg w p = Ok (a, i) ->
  same_shape w (w_set w a (set_vertex (obj w a) p.2 i sv v)).
Proof.
case/w_seg_lt=> h1 _ h2 _ _; split=> //.
  by rewrite /= size_set_nth (maxn_idPr h1).
move=> b; rewrite obj_set //; case: eqP => [->|//]; split=> //.
by rewrite /op_keys /= keys_seg_upd.
Qed.

(* vertex and saved vertex of the segment p points to *)
Definition at_ptr w p (x : vec F) (sv : option (vec F)) : Prop :=
  exists a i, [/\ w_seg w p = Ok (a, i),
    sg_pt (seg_nth (ds_segs (op_sp (obj w a))) i) = x & op_saved (obj w a) p.2 = sv].
Lemma at_get w p x sv : at_ptr w p x sv -> dv_getParameters w p = Ok x.
Proof. by case=> a [i [h <- _]]; rewrite /dv_getParameters h. Qed.
Lemma usable_at w p : usable w p -> exists x sv, at_ptr w p x sv.
Proof. by case=> a [i [h _]]; eexists; eexists; exists a, i. Qed.

Lemma vertex_at w p a i sv v q x sx : w_seg w p = Ok (a, i) ->
  let w' := w_set w a (set_vertex (obj w a) p.2 i sv v) in
  at_ptr w' p v (Some sv) /\ (q != p -> at_ptr w q x sx -> at_ptr w' q x sx).
Proof.
move=> hp; have [h1 e1 h2 e2 _] := w_seg_lt hp; have sh := shape_vertex sv v hp.
split.
  exists a, i; rewrite (shape_seg _ sh) obj_set // eqxx /= eqxx; split=> //.
  by rewrite nth_seg_upd // eqxx.
move=> ne [b [j [hq ex es]]]; exists b, j; rewrite (shape_seg _ sh); split=> //.
  rewrite obj_set //; case: eqP => [eb|//] /=; rewrite -{}ex; move: hq; rewrite eb => hq.
  have [_ _ h3 _ _] := w_seg_lt hq; rewrite nth_seg_upd //.
  by case: eqP => // ej; case/eqP: ne; apply: (w_seg_inj hq); rewrite ej.
rewrite obj_set //; case: eqP => [eb|//] /=; rewrite -{}es; move: hq; rewrite eb => hq.
case: eqP => // eq2; case/eqP: ne; have [_ eq1 _ _ _] := w_seg_lt hq.
by move: eq1 eq2; rewrite e1; case: (p) (q) => ? ? [? ?] /= -> ->.
Qed.

(* one call on a design variable *)
Lemma call_update w p dp x sv : usable w p -> at_ptr w p x sv ->
  exists w', [/\ step w (WUpdate p dp) = Ok w', same_shape w w',
    at_ptr w' p (mf_update x dp) (Some x) &
    forall q y sy, q != p -> at_ptr w q y sy -> at_ptr w' q y sy].
Proof.
case=> a [i [h al]] [b [j [h' ex _]]]; move: h'; rewrite h => -[eb ej].
rewrite -{}eb -{}ej in ex; rewrite /= /dv_update h /= al /= ex; eexists; split; first by [].
- exact: shape_vertex.
- by case: (vertex_at x (mf_update x dp) p x sv h).
by move=> q y sy ne hq; case: (vertex_at x (mf_update x dp) q y sy h) => _; apply.
Qed.
Lemma call_set w p v x sv : usable w p -> at_ptr w p x sv ->
  exists w', [/\ step w (WSet p v) = Ok w', same_shape w w',
    at_ptr w' p v (Some x) &
    forall q y sy, q != p -> at_ptr w q y sy -> at_ptr w' q y sy].
Proof.
case=> a [i [h al]] [b [j [h' ex _]]]; move: h'; rewrite h => -[eb ej].
rewrite -{}eb -{}ej in ex; rewrite /= /dv_setParameters h /= ex; eexists; split; first by [].
- exact: shape_vertex.
- by case: (vertex_at x v p x sv h).
by move=> q y sy ne hq; case: (vertex_at x v q y sy h) => _; apply.
Qed.
Lemma call_revert w p x y : usable w p -> at_ptr w p x (Some y) ->
  exists w', [/\ step w (WRevert F p) = Ok w', same_shape w w',
    at_ptr w' p y (Some y) &
    forall q z sz, q != p -> at_ptr w q z sz -> at_ptr w' q z sz].
Proof.
case=> a [i [h al]] [b [j [h' ex es]]]; move: h'; rewrite h => -[eb ej].
rewrite -{}eb in es; rewrite /= /dv_revert h /= es; eexists; split; first by [].
- exact: shape_vertex.
- by case: (vertex_at y y p x None h).
by move=> q z sz ne hq; case: (vertex_at y y q z sz h) => _; apply.
Qed.

(* a variable as a machine: its value and the saved value *)
Fixpoint mrun (st : vec F * option (vec F)) (ds : seq (dv_call F))
  : option (vec F * option (vec F)) :=
  if ds is d :: ds' then
    match d with
    | CUpdate dp => mrun (mf_update st.1 dp, Some st.1) ds'
    | CSet v => mrun (v, Some st.1) ds'
    | CRevert => if st.2 is Some y then mrun (y, Some y) ds' else None
    end
  else Some st.

Lemma mrun_protocol ds x sv : protocol ds ->
  exists sv', mrun (x, sv) ds = Some (net mf_update x ds, sv').
Proof.
move: {2}(size ds).+1 (ltnSn (size ds)) => n; elim: n ds x sv => // n IH [|d ds] x sv hs.
  by exists sv.
case: d hs => [dp|v|] hs //; case: ds hs => [|[dp'|v'|] ds] hs pr.
- by exists (Some x).
- exact: (IH (CUpdate dp' :: ds)).
- exact: (IH (CSet v' :: ds)).
- by apply: (IH ds) => //; move: hs; clear; rewrite /= !ltnS => h; apply: leq_trans h.
- by exists (Some x).
- exact: (IH (CUpdate dp' :: ds)).
- exact: (IH (CSet v' :: ds)).
- by apply: (IH ds) => //; move: hs; clear; rewrite /= !ltnS => h; apply: leq_trans h.
Qed.

Lemma run_vars cs w : (forall c, List.In c cs -> exists p d, on_var c = Some (p, d) /\ usable w p) ->
  (forall p x sv, usable w p -> at_ptr w p x sv -> mrun (x, sv) (calls_of p cs) <> None) ->
  exists w', [/\ run w cs = Ok w', same_shape w w' &
    forall p x sv x' sv', at_ptr w p x sv -> mrun (x, sv) (calls_of p cs) = Some (x', sv') ->
      at_ptr w' p x' sv'].
Proof.
elim: cs w => [|c cs IH] w Hc Hm.
  by exists w; split=> // p x sv x' sv' h [<- <-].
have [p [d [od us]]] := Hc c (or_introl erefl).
have [x [sv ap]] := usable_at us.
have calls_p : calls_of p (c :: cs) = d :: calls_of p cs by rewrite /= od eqxx.
have calls_q q : q != p -> calls_of q (c :: cs) = calls_of q cs.
  by move=> ne; rewrite /= od eq_sym (negbTE ne).
have mp := Hm p x sv us ap; rewrite calls_p in mp.
have [w1 [x1 [sv1 [e1 sh ap1 aq1 m1]]]] : exists w1 x1 sv1, [/\ step w c = Ok w1, same_shape w w1,
    at_ptr w1 p x1 sv1, (forall q y sy, q != p -> at_ptr w q y sy -> at_ptr w1 q y sy) &
    mrun (x, sv) (d :: calls_of p cs) = mrun (x1, sv1) (calls_of p cs)].
  case: c od {IH Hc Hm calls_p calls_q} => //= [q dp|q|q v] [eq ed]; subst q d.
  - by have [w1 [h1 h2 h3 h4]] := call_update dp us ap; exists w1, (mf_update x dp), (Some x).
  - case: sv mp ap => [y|] //= mp ap.
    by have [w1 [h1 h2 h3 h4]] := call_revert us ap; exists w1, y, (Some y).
  - by have [w1 [h1 h2 h3 h4]] := call_set v us ap; exists w1, v, (Some x).
have det q y sy y' sy' : at_ptr w1 q y sy -> at_ptr w1 q y' sy' -> y = y' /\ sy = sy'.
  by case=> a [i [h1 <- <-]] [b [j [h2 <- <-]]]; move: h2; rewrite h1 => -[<- <-].
have back q y sy : q != p -> at_ptr w1 q y sy -> at_ptr w q y sy.
  move=> ne h; have [b [j [hb _ _]]] := h.
  have [x0 [sv0 h0]] : exists x0 sv0, at_ptr w q x0 sv0.
    by eexists; eexists; exists b, j; rewrite -(shape_seg _ sh).
  by have [-> ->] := det _ _ _ _ _ h (aq1 _ _ _ ne h0).
have shb : same_shape w1 w.
  by case: sh => s1 s2 s3; split=> // a; case: (s3 a) => -> -> -> -> ->.
have [||w2 [e2 sh2 H2]] := IH w1.
- move=> c' hc'; have [q1 [d' [h1 h2]]] := Hc c' (or_intror hc').
  by exists q1, d'; split=> //; exact: shape_usable sh h2.
- move=> q y sy uq aq; have uq0 := shape_usable shb uq.
  have [eq|ne] := eqVneq q p.
    by rewrite eq in aq *; have [-> ->] := det _ _ _ _ _ aq ap1; rewrite -m1.
  by rewrite -calls_q //; apply: Hm => //; exact: back.
exists w2; rewrite /= e1 /=; split=> //; first exact: shape_trans sh sh2.
move=> q y sy y' sy' aq; have [eq|ne] := eqVneq q p.
  rewrite eq in aq *; rewrite -/(calls_of p (c :: cs)) calls_p.
  have -> : (y, sy) = (x, sv).
    by move: aq ap; case=> a [i [h1 <- <-]] [b [j [h2 <- <-]]]; move: h2; rewrite h1 => -[<- <-].
  by rewrite m1 => e; exact: H2 ap1 e.
rewrite -/(calls_of q (c :: cs)) calls_q // => e.
exact: H2 (aq1 _ _ _ ne aq) e.
Qed.

(* updates and reverts *)
Lemma update_revert w cs :
  (forall c, List.In c cs -> exists p d, on_var c = Some (p, d) /\ usable w p) ->
  (forall p, usable w p -> protocol (calls_of p cs)) ->
  exists2 w', run w cs = Ok w' &
    forall p x, dv_getParameters w p = Ok x ->
      dv_getParameters w' p = Ok (net mf_update x (calls_of p cs)).
Proof.
move=> Hc Hp.
have [|w' [e sh H]] := run_vars Hc.
  by move=> p x sv us ap; have [sv' ->] := mrun_protocol x sv (Hp p us).
exists w' => // p x; rewrite /dv_getParameters; case h: (w_seg w p) => [[a i]||] //= [ex].
have ap : at_ptr w p x (op_saved (obj w a) p.2) by exists a, i.
suff [sv' hm] : exists sv', mrun (x, op_saved (obj w a) p.2) (calls_of p cs) =
    Some (net mf_update x (calls_of p cs), sv').
  by rewrite -/(dv_getParameters w' p); exact: at_get (H _ _ _ _ _ ap hm).
case cE: (calls_of p cs) => [|d ds]; first by exists (op_saved (obj w a) p.2).
rewrite -cE; apply: mrun_protocol; apply: (Hp); clear Hp.
elim: cs Hc {w' e sh H} cE => //= c cs IH Hc.
have [q [d' [od us]]] := Hc c (or_introl erefl); rewrite od.
by case: eqP => [<- //|_]; apply: IH => c' hc'; apply: Hc; right.
Qed.
End Vars.
