(* Refutations about design variables, time-offset nodes and the motion error term. *)
From mathcomp Require Import all_ssreflect all_algebra.
From mathcomp.algebra_tactics Require Import ring.
From Verif Require Import Prelude CoxDeBoor BSplineModel BSplineSpec PoseModel PoseSpec DVModel
  DVSpec DVProofs MotionSpec PoseCayley Examples PoseExamples DVExamples.
Set Implicit Arguments.
Unset Strict Implicit.
Unset Printing Implicit Defensive.
Import GRing.Theory Num.Theory Order.Theory.
Local Open Scope ring_scope.
Lemma node_value_ext (e : Q) D st (a b : node Q) : nd_time a = nd_time b ->
  nd_order a = nd_order b -> node_value e D st a = node_value e D st b.
Proof. by move=> h1 h2; rewrite /node_value h1 h2. Qed.
#[local] Opaque dv_step dv_toExpression node_jacobians node_value to_new to_value to_jacobians
  localVvCoefficientVectorIndices me_new me_build me_error lin short lin_st lin_op lin_nd dv_update
  eps0 short_t lt0 upper_sym.

Lemma time_offset_refuted : exists (R : rotation Q) (s : bspline Q) (iT t : Q) nd T idx c,
  [/\ wf s /\ bs_dim s = 6%N, 0 < last_len s, tmin s <= iT < tmax s,
      to_new eps0 s iT 0 0 = Ok nd /\ to_value eps0 R s nd t = Ok T &
      [/\ localVvCoefficientVectorIndices eps0 s t = Ok idx, c \in idx & c \notin to_idx nd]].
Proof.
have key : forall (u : Q) (o : outcome (to_node Q)) (f : to_node Q -> outcome (mat Q))
    (g : to_node Q -> outcome (seq (nat * mat Q) * vec Q)) (l : outcome (seq nat)),
    (if o is Ok nd then
      [&& to_bmin nd <= u, u < to_bmax nd, to_idx nd == [:: 0; 1]%N,
        (if l is Ok l then l == [:: 1; 2]%N else false)
      & (if g nd is Ok (js, _) then unzip1 js == [:: 0; 1]%N else false)]
    else false) ->
    (if o is Ok nd then if f nd is Ok _ then true else false else false) ->
    exists nd T idx c, [/\ o = Ok nd /\ f nd = Ok T, l = Ok idx, c \in idx & c \notin to_idx nd].
  move=> u [nd|e|] // f g [l|e|]; try by case/and5P.
  move=> /and5P[_ _ /eqP n1 /eqP lE _]; case fE: (f nd) => [T|e|] // _.
  by exists nd, T, l, 2%N; rewrite lE n1.
have [nd [T [idx [c [a1 a2 a3 a4]]]]] := key short_t (to_new eps0 short lt0 0 0)
  (fun nd => to_value eps0 cayQ short nd short_t) (fun nd => to_jacobians eps0 cayQ short 3 nd short_t)
  (localVvCoefficientVectorIndices eps0 short short_t) short_node short_value.
have [h1 h2 h3] := and3P short_facts.
exists cayQ, short, lt0, short_t, nd, T, idx, c; split; [split; [exact: short_wf|reflexivity]|exact: h1| |exact: a1|split].
- by apply/andP; split; [exact: h2|exact: h3].
- exact: a2.
- exact: a3.
- exact: a4.
Qed.

Lemma append_refuted (qr ldlt : nat -> mat Q -> vec Q -> vec Q) :
  exists (st st' : spline_dv Q) t p junk nd v js i dp st2 v2,
  let ptr := nth 0%N (dv_ids st') i in
  [/\ wf (sd_spline st) /\ 0 < last_len (sd_spline st), dv_new 1 (sd_spline st) = Ok st,
      tmin (sd_spline st) <= nd_time nd <= tmax (sd_spline st) /\
      dv_toExpression eps0 1 st (nd_time nd) (nd_order nd) = Ok nd,
      dv_step eps0 1 qr ldlt st (AddSegment t p junk) = Ok st' /\ (i < bs_ncoef (sd_spline st'))%N &
   [/\ node_value eps0 1 st' nd = Ok v, node_jacobians eps0 1 st' nd = Ok js,
       dv_update st' ptr dp = Ok st2, node_value eps0 1 st2 nd = Ok v2 &
       v2 0%N <> v 0%N + predicted 1 js ptr dp 0%N]].
Proof.
have key : forall (o : outcome (spline_dv Q)) (te : spline_dv Q -> outcome (node Q))
    (nj : spline_dv Q -> node Q -> outcome (seq (nat * mat Q)))
    (nv : spline_dv Q -> node Q -> outcome (vec Q)) (nd : node Q),
  (if o is Ok st' then if te st' is Ok nd' then
  if nj st' nd is Ok [:: (p0, J0); (p1, J1)] then
  if nj st' nd' is Ok [:: (q0, K0); (q1, K1)] then
  if nv st' nd' is Ok _ then
    [&& bs_ncoef (sd_spline st') == 3%N, (nd_time nd' == 2%:R), (nd_order nd' == 0%N),
     (p0 == 0%N) && (p1 == 1%N), (q0 == 1%N) && (q1 == 2%N),
     nth 0%N (dv_ids st') 1 == 1%N,
     (J0 0%N 0%N == 1) && (J1 0%N 0%N == 0) & (K0 0%N 0%N == 1) && (K1 0%N 0%N == 0)]
  else false else false else false else false else false) ->
  exists st' nd' J0 J1 K0 K1 v,
   [/\ o = Ok st', te st' = Ok nd', nj st' nd = Ok [:: (0%N, J0); (1%N, J1)],
       nj st' nd' = Ok [:: (1%N, K0); (2%N, K1)] /\ nv st' nd' = Ok v &
       [/\ bs_ncoef (sd_spline st') = 3%N, nd_time nd' = 2%:R /\ nd_order nd' = 0%N,
        nth 0%N (dv_ids st') 1 = 1%N, J1 0%N 0%N = 0 & K0 0%N 0%N = 1]].
  move=> [st'|e|] // te nj nv nd; case E: (te st') => [nd'|e|] //.
  case J: (nj st' nd) => [[|[p0 J0] [|[p1 J1] [|? ?]]]|e|] //.
  case K: (nj st' nd') => [[|[q0 K0] [|[q1 K1] [|? ?]]]|e|] //.
  case V: (nv st' nd') => [v|e|] // /and5P[/eqP nc /eqP t' /eqP o' /andP[/eqP p0E /eqP p1E]].
  move=> /and4P[/andP[/eqP q0E /eqP q1E] /eqP id1 /andP[/eqP J0E /eqP J1E] /andP[/eqP K0E /eqP K1E]].
  by exists st', nd', J0, J1, K0, K1, v; rewrite E J K V p0E p1E q0E q1E.
have [st' [nd' [J0 [J1 [K0 [K1 [v [S E J [K V] [nc [t' o'] id1 J1E K0E]]]]]]]]] :=
  key (dv_step eps0 1 qr ldlt lin_st lin_op) (fun st' => dv_toExpression eps0 1 st' 2%:R 0)
    (node_jacobians eps0 1) (node_value eps0 1) lin_nd (lin_after qr ldlt).
have tt : tmin lin <= 2%:R <= tmax lin by vm_compute.
have sE : sd_spline lin_st = lin by [].
have tE : nd_time lin_nd = 2%:R by [].
have oE : nd_order lin_nd = 0%N by [].
have [st0 [e0 _ ist _]] := dv_new_ok (erefl : bs_dim lin = 1%N).
have ist0 : in_step 1 lin_st by move: e0; rewrite lin_st_new => -[->].
exists lin_st.
have ist' : in_step 1 st' by exact: step_in_step ist0 S.
have same st : node_value eps0 1 st lin_nd = node_value eps0 1 st nd'.
  by apply: node_value_ext; rewrite ?tE ?oE ?t' ?o'.
have [b [js [_ _ K' _ H]]] := expression_aligned ist' E V.
move: K'; rewrite K => -[jsE].
have [|st2 [v2 [u1 _ u3 u4]]] := H 1%N (fun _ => 1); first by rewrite nc.
rewrite id1 in u1 u4.
exists st', 3%:R, one1, zerov, lin_nd, v, [:: (0%N, J0); (1%N, J1)], 1%N, (fun _ => 1), st2, v2.
rewrite sE tE oE id1; split.
- by split; [exact: lin_wf|exact: lin_last].
- exact: lin_st_new.
- by split; [exact: tt|exact: lin_nd_new].
- by split; [exact: S|rewrite nc].
have neq : v2 0%N <> v 0%N + predicted 1 [:: (0%N, J0); (1%N, J1)] 1 (fun _ => 1) 0%N.
  move: (u4 0%N isT); rewrite -jsE; move: K0E J1E; clear=> K0E J1E ->.
  rewrite /predicted /= J1E K0E !mul0r !mul1r !add0r !addr0  => /eqP.
  by rewrite -subr_eq0 addrAC subrr add0r oner_eq0.
by split; [rewrite same; exact: V|exact: J|exact: u1|rewrite same; exact: u3|exact: neq].
Qed.

Lemma descending_refuted : exists (s : bspline Q) (W : dmat Q) me (pos : nat -> nat) H rhs dx M E1 E2,
  [/\ [/\ wf s, dm_rows W = bs_dim s, dm_cols W = bs_dim s,
          (forall r c, W r c = W c r) & forall v : nat -> Q, 0 <= bil (bs_dim s) (bs_dim s) v W v],
      me_new 0 s W 1 = Ok me,
      (forall i j, (i < bs_ncoef s)%N -> (j < bs_ncoef s)%N -> i <> j ->
         (pos i + bs_dim s <= pos j)%N \/ (pos j + bs_dim s <= pos i)%N),
      me_build me s (bs_ncoef s) (fun _ => true) pos id zerom zerov = Ok (H, rhs) /\
      solves (bs_dim s) (bs_ncoef s) (fun _ => true) pos H rhs dx &
      [/\ me_error me (stepped s (fun _ => true) pos dx) = Ok E1,
          me_error me (with_coef s M) = Ok E2 & E2 < E1]].
Proof.
have key : forall (o : outcome (motion_error Q)) (b : motion_error Q -> outcome (mat Q * vec Q))
   (e1 e2 : motion_error Q -> outcome Q),
  (if o is Ok me then if b me is Ok (H, rhs) then if e1 me is Ok E1 then if e2 me is Ok E2 then
   [&& upper_sym H 0 0 == 1, upper_sym H 0 1 == 0, upper_sym H 1 0 == 0, upper_sym H 1 1 == 1,
      rhs 0%N == -1, rhs 1%N == 1 & E2 < E1]
   else false else false else false else false) ->
  exists me H rhs E1 E2, [/\ o = Ok me, b me = Ok (H, rhs), e1 me = Ok E1 /\ e2 me = Ok E2, E2 < E1
   & [/\ upper_sym H 0 0 = 1, upper_sym H 0 1 = 0, upper_sym H 1 0 = 0, upper_sym H 1 1 = 1
     & rhs 0%N = -1 /\ rhs 1%N = 1]].
  move=> [me|e|] // b e1 e2; case B: (b me) => [[H rhs]|e|] //; case X: (e1 me) => [E1|e|] //.
  case Y: (e2 me) => [E2|e|] //.
  move=> /and5P[/eqP h00 /eqP h01 /eqP h10 /eqP h11 /and3P[/eqP r0 /eqP r1 lt]].
  by exists me, H, rhs, E1, E2.
have [me [H [rhs [E1 [E2 [k1 k2 [k3 k3'] k4 [h00 h01 h10 h11 [r0 r1]]]]]]]] := key (me_new 0 lin w1 1)
  (fun me => me_build me lin 2 (fun _ => true) swap2 id zerom zerov)
  (fun me => me_error me (stepped lin (fun _ => true) swap2 swap_dx))
  (fun me => me_error me (with_coef lin (fun _ _ => 0))) lin_swapped.
have [dE nE] : bs_dim lin = 1%N /\ bs_ncoef lin = 2%N by [].
exists lin, w1, me, swap2, H, rhs, swap_dx, (fun _ _ => 0), E1, E2; rewrite dE nE.
split; [split|exact: k1| | |by split; [exact: k3|exact: k3'|exact: k4]].
- exact: lin_wf.
- by [].
- by [].
- by [].
- by move=> v; rewrite /bil /= !add0r mulr1 -expr2 sqr_ge0.
- by case=> [|[|i]] [|[|j]] // _ _ _; [right|left].
split; first exact: k2.
case=> [|[|i]] // [|r] // _ _ _; rewrite /active_sum /= ?add0r.
- by rewrite /swap2 /swap_dx /= h11 h10 r1 mul0r addr0 mul1r.
- by rewrite /swap2 /swap_dx /= h01 h00 r0 mul0r add0r mul1r.
Qed.
