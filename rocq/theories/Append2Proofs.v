(* addCurveSegment2: the two coefficients that are solved for minimise append_cost. *)
From mathcomp Require Import all_ssreflect all_algebra.
From mathcomp.algebra_tactics Require Import ring.
From mathcomp.zify Require Import zify.
From Verif Require Import Prelude CoxDeBoor CoxDeBoorProofs BSplineModel BSplineSpec BSplineProofs
  BSplineEvalProofs BSplineAccessProofs BSplineCoefProofs BSplineInitProofs LinSolve
  BSplineAppendProofs Append2Spec PoseModel PoseSpec PoseProofs PoseTimeProofs PoseBodyProofs.
Set Implicit Arguments.
Unset Strict Implicit.
Unset Printing Implicit Defensive.
Import GRing.Theory Num.Theory Order.Theory.
Local Open Scope ring_scope.

Section LS.
Variable F : realFieldType.

Lemma ls_diff n N (A : mat F) (b c e : vec F) :
  (forall i, (i < N)%N -> mulv N (mulm n (trm A) A) c i = mulv n (trm A) b i) ->
  fsum n (fun i => (mulv N A e i - b i) ^+ 2)
  = fsum n (fun i => (mulv N A c i - b i) ^+ 2)
    + fsum n (fun i => mulv N A (fun j => e j - c j) i ^+ 2).
Proof.
move=> H; have z v : bil N N v (zerom : mat F) v = 0.
  by rewrite /bil fsum0 // => x _; rewrite fsum0 // => y _; rewrite /zerom mulr0 mul0r.
have := @qcost_diff F n N A b zerom c e (fun _ _ _ _ => erefl).
rewrite /qcost !z !addr0 [fsum N _]fsum0 ?mulr0 ?add0r => [<-|y yN]; first by ring.
rewrite (@eq_mulv _ N _ (mulm n (trm A) A) c c) //; first by rewrite H // subrr mulr0.
by move=> j _; rewrite /zerom addr0.
Qed.

Lemma fsum4 D (f : nat -> F) : fsum (4 * D) f =
  fsum D (fun r => f r + f (D + r)%N + f (2 * D + r)%N + f (3 * D + r)%N).
Proof.
have -> : (4 * D = D + (D + (D + D)))%N by clear; lia.
rewrite !fsum_cat !fsumD !addrA; congr (_ + _ + _ + _);
  apply: eq_fsum => r _; congr (f _); clear; lia.
Qed.

Lemma sum_sq0 n (f : nat -> F) : fsum n (fun i => f i ^+ 2) <= 0 ->
  forall i, (i < n)%N -> f i = 0.
Proof.
move=> le; have s0 : fsum n (fun i => f i ^+ 2) = 0 by apply/eqP; rewrite eq_le le sq_ge0.
move: s0; rewrite fsumE => /eqP; rewrite psumr_eq0 => [/allP h|i' _]; last exact: sqr_ge0.
move=> i lt; have := h (Ordinal lt) (mem_index_enum _).
by rewrite /= sqrf_eq0 => /eqP.
Qed.
End LS.

Section Append2.
Variables (F : realFieldType) (eps : F).
Hypothesis e0 : 0 < eps.
Variable s : bspline F.
Hypothesis wfs : wf s.
Hypothesis l0 : 0 < last_len s.
Local Notation k := (bs_order s).
Local Notation n := (size (bs_knots s)).
Local Notation D := (bs_dim s).
Variable t : F.
Hypothesis tm : tmax s < t.
Variable solve : nat -> mat F -> vec F -> vec F.
Hypothesis exact : exact_solver solve.

Lemma add2E (p1 : dvec F) (lambda : F) junk : dv_size p1 = D ->
  exists s' p0, [/\ addCurveSegment2 eps solve s t p1 lambda junk = Ok s',
      eval eps s (tmax s) = Ok p0,
      [/\ wf s', bs_order s' = k, size (bs_knots s') = n.+1 & bs_dim s' = D],
      (forall j, (j < n.+1)%N -> kn s' j = ext_kn s t j) /\
      (forall r j, (j.+1 < bs_ncoef s)%N -> bs_coef s' r j = bs_coef s r j)
    & exists2 E, append_cost eps lambda (tmax s) t p0 p1 s' E &
      [/\ forall C, same_but_two s' C -> exists2 E',
            append_cost eps lambda (tmax s) t p0 p1 (coef_spline s' C) E' &
            E <= E' /\ (E' <= E -> forall r j, (r < D)%N -> (j < bs_ncoef s')%N ->
               C r j = bs_coef s' r j)
        & lambda = 0 \/ k = 2%N -> exists v0 v1,
            [/\ eval eps s' (tmax s) = Ok v0, eval eps s' t = Ok v1
              & forall r, (r < D)%N -> v0 r = p0 r /\ v1 r = p1 r]]].
Proof.
move=> pD; have hk := wf_order wfs; have hn := wf_size wfs; have hc := wf_cols wfs.
have [p0 [s1 [h1 hp0 wf1 [o1 n1 d1 c1 [K1 C1]]]]] :=
  @addCurveSegment_knotsE _ eps e0 s wfs l0 t tm junk _ pD.
rewrite /addCurveSegment2 h1 /=; set NT := numValidTimeSegments k n.
have NTE : NT = (n.+1 - 2 * k)%N by [].
rewrite timeInterval_iE //; last by rewrite o1 n1 NTE /numValidTimeSegments; move: hn; clear; lia.
rewrite o1; set i := (n - k)%N.
have -> : (k + NT - 1 = i)%N by rewrite NTE /i; move: hk hn; clear; lia.
have -> : (k + NT = i.+1)%N by rewrite NTE /i; move: hk hn; clear; lia.
have iN : (i.+1 < n.+1)%N by rewrite /i; move: hk hn; clear; lia.
have ki : kn s1 i = tmax s by rewrite K1 ?(ltnW iN) // /ext_kn leqnn.
have ki1 : kn s1 i.+1 = t.
  by rewrite K1 // /ext_kn /i ltnn subSnn mul1r addrC subrK.
rewrite ki ki1 /= d1.
have last1 : (size (bs_knots s1) - bs_order s1).-1 = i.
  by rewrite n1 o1 /i; move: hk hn; clear; lia.
have tmax1 : tmax s1 = t by rewrite -ki1 /tmax n1 o1; congr (kn s1 _); rewrite /i; move: hk hn; clear; lia.
have tmin1 : tmin s1 <= tmax s.
  by rewrite -ki; apply: (kn_mono wf1); rewrite ?o1 ?n1 /i; move: hk hn; clear; lia.
have pos1 : kn s1 i < kn s1 i.+1 by rewrite ki ki1.
have ik : (k <= i.+1)%N by rewrite /i; move: hk hn; clear; lia.
have seg0 : segment_of eps s1 (tmax s) i.
  rewrite /segment_of; case: ifP => _; first by rewrite last1.
  rewrite o1 n1 ki ki1 lexx tm; split=> //; rewrite /i; move: hk hn; clear; lia.
have seg1 : segment_of eps s1 t i.
  by rewrite /segment_of tmax1 subrr normr0 e0 last1; split=> //; apply: le_trans tmin1 (ltW tm).
have [lc -> [slc Hlc] /=] := localCoefficientVectorE wf1 seg0.
have [u0 [P0 [-> _ HP0 _ Hu0]]] := Phi_entries wf1 0 seg0.
have [u1 [P1 [-> _ HP1 _ Hu1]]] := Phi_entries wf1 0 seg1 => /=.
have [u2 [P2 [-> _ HP2 _ Hu2]]] := Phi_entries wf1 2 seg0 => /=.
have [u3 [P3 [-> _ HP3 _ Hu3]]] := Phi_entries wf1 2 seg1 => /=.
rewrite d1 o1 in Hlc HP0 HP1 HP2 HP3; rewrite o1 in Hu0 Hu1 Hu2 Hu3.
set off := (D * (k - 2))%N; set A := set_block _ _ _ _ _ _; set b := set_segment _ _ _ _.
set cs := if _ then _ else _.
have k2 : (k = (k - 2) + 2)%N by move: hk; clear; lia.
(* rows of the system *)
have Arow (r c : nat) (P : mat F) (u : vec F) : (r < D)%N -> (c < 2 * D)%N ->
  (forall r c, (r < D)%N -> (c < k * D)%N -> P r c = (r == (c %% D)%N)%:R * u (c %/ D)%N) ->
  get_block P 0 off r c = (r == (c %% D)%N)%:R * u (k - 2 + c %/ D)%N.
  move=> rD cD H; have D0 : (0 < D)%N by apply: leq_ltn_trans rD.
  rewrite /get_block add0n H //; first by rewrite /off mulnC modnMDl divnMDl.
  by rewrite k2 mulnDl /off mulnC ltn_add2l.
have row (m : mat F) (u : vec F) (x : vec F) r : (r < D)%N ->
  (forall c, (c < 2 * D)%N -> m r c = (r == (c %% D)%N)%:R * u (k - 2 + c %/ D)%N) ->
  mulv (2 * D) m x r = x r * u (k - 2)%N + x (D + r)%N * u (k - 1)%N.
  move=> rD H; rewrite (@diag_blocks_mulv _ D 2 (fun q => u (k - 2 + q)%N) m x) //.
  rewrite /= !add0r mul0n mul1n add0n addn0; congr (_ + _ * u _); move: hk; clear; lia.
have A0 (x : vec F) r : (r < D)%N ->
  mulv (2 * D) A x r = x r * u0 (k - 2)%N + x (D + r)%N * u0 (k - 1)%N.
  move=> rD; apply: row => // c cD; rewrite -(Arow r c P0 u0) // /A /set_block !leq0n !add0n cD !andbT.
  have -> : (3 * D <= r)%N = false by move: rD; clear; lia.
  have -> : (2 * D <= r)%N = false by move: rD; clear; lia.
  have -> : (D <= r)%N = false by move: rD; clear; lia.
  by rewrite rD /= !subn0.
have A1 (x : vec F) r : (r < D)%N ->
  mulv (2 * D) A x (D + r)%N = x r * u1 (k - 2)%N + x (D + r)%N * u1 (k - 1)%N.
  move=> rD; rewrite -[LHS]/(mulv (2 * D) (fun r' => A (D + r')%N) x r).
  apply: row => // c cD; rewrite -(Arow r c P1 u1) // /A /set_block !leq0n !add0n cD !andbT.
  have -> : (3 * D <= D + r)%N = false by move: rD; clear; lia.
  have -> : (2 * D <= D + r)%N = false by move: rD; clear; lia.
  by rewrite leq_addr ltn_add2l rD /= !subn0 addKn.
have A2 (x : vec F) r : (r < D)%N ->
  mulv (2 * D) A x (2 * D + r)%N = lambda * (x r * u2 (k - 2)%N + x (D + r)%N * u2 (k - 1)%N).
  move=> rD; rewrite -[LHS]/(mulv (2 * D) (fun r' => A (2 * D + r')%N) x r).
  rewrite (@row _ (fun q => lambda * u2 q)) //; first by ring.
  move=> c cD; rewrite mulrCA -(Arow r c P2 u2) // /A /set_block !leq0n !add0n cD !andbT.
  have -> : (3 * D <= 2 * D + r)%N = false by move: rD; clear; lia.
  have -> : (2 * D + r < 2 * D + D)%N by move: rD; clear; lia.
  by rewrite leq_addr /= !subn0 addKn.
have A3 (x : vec F) r : (r < D)%N ->
  mulv (2 * D) A x (3 * D + r)%N = lambda * (x r * u3 (k - 2)%N + x (D + r)%N * u3 (k - 1)%N).
  move=> rD; rewrite -[LHS]/(mulv (2 * D) (fun r' => A (3 * D + r')%N) x r).
  rewrite (@row _ (fun q => lambda * u3 q)) //; first by ring.
  move=> c cD; rewrite mulrCA -(Arow r c P3 u3) // /A /set_block !leq0n !add0n cD !andbT.
  have -> : (3 * D + r < 3 * D + D)%N by move: rD; clear; lia.
  by rewrite leq_addr /= !subn0 addKn.
have kn1 : (i + k.-1 < size (bs_knots s1))%N by rewrite n1 /i; move: hk hn; clear; lia.
have w0 : u0 (k - 1)%N = 0.
  rewrite Hu0 //; last by move: hk; clear; lia.
  rewrite /weight derivn0 o1 -ki.
  have -> : (i.+1 - k + (k - 1) = i)%N by move: ik hk; clear; lia.
  by have -> : (k.-1 = k.-2.+1)%N by [move: hk; clear; lia]; rewrite last_at_left.
have w0' : u0 (k - 2)%N != 0.
  rewrite Hu0 //; last by move: hk; clear; lia.
  rewrite /weight derivn0 o1 -ki gt_eqF //.
  have -> : (k.-1 = k.-2.+1)%N by move: hk; clear; lia.
  apply: (prev_at_left (kn_mono wf1)) => //.
  - by move: ik hk; rewrite /i; clear; lia.
  - have -> : (i.+1 - k + (k - 2) = i.-1)%N by move: ik hk; clear; lia.
    rewrite ki K1 /ext_kn; last by move: iN; clear; lia.
    by rewrite leq_pred -subr_gt0.
  by rewrite n1 /i; move: hk hn; clear; lia.
have w1 : u1 (k - 1)%N != 0.
  rewrite Hu1 //; last by move: hk; clear; lia.
  rewrite /weight derivn0 o1 -ki1 gt_eqF //.
  have -> : (i.+1 - k + (k - 1) = i)%N by move: ik hk; clear; lia.
  exact: (last_at_right (kn_mono wf1)).
have inj (x : vec F) : (forall j, (j < 4 * D)%N -> mulv (2 * D) A x j = 0) ->
  forall j, (j < 2 * D)%N -> x j = 0.
  move=> H; have z r : (r < D)%N -> x r = 0.
    move=> rD; have := H r; rewrite A0 // w0 mulr0 addr0.
    rewrite (leq_trans rD (leq_pmull _ _)) // => /(_ isT)/eqP.
    by rewrite mulf_eq0 (negPf w0') orbF => /eqP.
  move=> j jD; have [jl|jl] := ltnP j D; first exact: z.
  have jr : (j - D < D)%N by move: jD jl; clear; lia.
  have j4 : (j < 4 * D)%N by move: jD; clear; lia.
  have := H j j4; rewrite -[in X in X = _](subnKC jl) A1 // z // mul0r add0r subnKC // => /eqP.
  by rewrite mulf_eq0 (negPf w1) orbF => /eqP.
have sol j : (j < 2 * D)%N ->
  mulv (2 * D) (mulm (4 * D) (trm A) A) cs j = mulv (4 * D) (trm A) b j.
  move=> jD; rewrite /cs; case: eqP => [e|_] /=; first by move: e jD; clear; lia.
  by apply: exact => //; apply: injective_solvable; apply: normal_injective.
have lcE (P : mat F) (u : vec F) r : (r < D)%N ->
  (forall r c, (r < D)%N -> (c < k * D)%N -> P r c = (r == (c %% D)%N)%:R * u (c %/ D)%N) ->
  mulv off P lc r = fsum (k - 2) (fun c => bs_coef s1 r (i.+1 - k + c)%N * u c).
  move=> rD H; rewrite /off mulnC (@diag_blocks_mulv _ D (k - 2) u P) //; last first.
    move=> c cD; apply: H => //; apply: leq_trans cD _; rewrite leq_mul2r leq_subr orbT //.
  by apply: eq_fsum => c ck; rewrite Hlc //; move: ck; clear; lia.
have b0 r : (r < D)%N -> b r = p0 r - fsum (k - 2) (fun c => bs_coef s1 r (i.+1 - k + c)%N * u0 c).
  by move=> rD; rewrite /b /set_segment leqNgt rD /= subn0 (lcE P0 u0).
have b1 r : (r < D)%N -> b (D + r)%N = p1 r - fsum (k - 2) (fun c => bs_coef s1 r (i.+1 - k + c)%N * u1 c).
  by move=> rD; rewrite /b /set_segment leq_addr ltn_add2l rD /= addKn (lcE P1 u1).
have b2 r : (D + D <= r)%N -> b r = 0.
  move=> rD; rewrite /b /set_segment.
  have -> : (r < D + D)%N = false by move: rD; clear; lia.
  have -> : (r < 0 + D)%N = false by move: rD; clear; lia.
  by rewrite !andbF.
have nc : bs_ncoef s = i by move: hc; rewrite /i; clear; lia.
have split2 (f : nat -> F) : fsum k f = fsum (k - 2) f + (f (k - 2)%N + f (k - 1)%N).
  rewrite {1}k2 fsum_cat /= add0r addn0; congr (_ + (_ + f _)); move: hk; clear; lia.
have jE1 : (i.+1 - k + (k - 2) = i.-1)%N by move: ik hk; clear; lia.
have jE2 : (i.+1 - k + (k - 1) = i)%N by move: ik hk; clear; lia.
have i0 : (0 < i)%N by rewrite /i; move: hk hn; clear; lia.
(* evaluation of the extended spline for any control vertices *)
have val C x (u : vec F) d : segment_of eps s1 x i ->
  (kn s1 i < kn s1 i.+1 -> forall c, (c < k)%N -> u c = weight s1 x i d c) ->
  exists2 v, evalD eps (with_coef s1 C) x d = Ok v & forall r,
  v r = fsum (k - 2) (fun c => C r (i.+1 - k + c)%N * u c)
        + (C r i.-1 * u (k - 2)%N + C r i * u (k - 1)%N).
  move=> seg Hu; have wfX := wf_with_coef wf1 C.
  have [v hv Hv] := evalD_weight wfX (s := with_coef s1 C) d seg pos1; exists v => // r.
  rewrite Hv /= o1 split2; congr (_ + _).
    by apply: eq_fsum => c ck; rewrite Hu //; move: ck; clear; lia.
  have a1 : (k - 2 < k)%N by move: hk; clear; lia.
  have a2 : (k - 1 < k)%N by move: hk; clear; lia.
  by rewrite !Hu // jE1 jE2.
pose stack (C : mat F) : vec F := fun j => if (j < D)%N then C j i.-1 else C (j - D)%N i.
have st0 C r : (r < D)%N -> stack C r = C r i.-1 by rewrite /stack => ->.
have st1 C r : stack C (D + r)%N = C r i.
  by rewrite /stack ltnNge leq_addr /= addKn.
have fixedE C (u : vec F) r : same_but_two s1 C ->
  fsum (k - 2) (fun c => C r (i.+1 - k + c)%N * u c)
  = fsum (k - 2) (fun c => bs_coef s1 r (i.+1 - k + c)%N * u c).
  move=> same; apply: eq_fsum => c ck; rewrite same // c1 nc.
  by move: ck ik hk; clear; lia.
pose cost C := fsum (4 * D) (fun j => (mulv (2 * D) A (stack C) j - b j) ^+ 2).
have costE C : same_but_two s1 C ->
  append_cost eps lambda (tmax s) t p0 p1 (with_coef s1 C) (cost C).
  move=> same; have [v0 hv0 Hv0] := val C _ _ _ seg0 Hu0; have [v1 hv1 Hv1] := val C _ _ _ seg1 Hu1.
  pose T : mat F := fun r j => if (j.+2 < bs_ncoef s1)%N then 0 else C r j.
  have [a0 ha0 Ha0] := val T _ _ _ seg0 Hu2; have [a1 ha1 Ha1] := val T _ _ _ seg1 Hu3.
  have Tz (u : vec F) r : fsum (k - 2) (fun c => T r (i.+1 - k + c)%N * u c) = 0.
    apply: fsum0 => c ck; rewrite /T c1 nc.
    have -> : ((i.+1 - k + c).+2 < i.+1)%N by move: ck ik hk; clear; lia.
    by rewrite mul0r.
  have T1 r : T r i.-1 = C r i.-1.
    by rewrite /T c1 nc; have -> : (i.-1.+2 < i.+1)%N = false by move: i0; clear; lia.
  have T2 r : T r i = C r i.
    by rewrite /T c1 nc; have -> : (i.+2 < i.+1)%N = false by clear; lia.
  exists v0, v1, a0, a1; split=> //; rewrite /cost fsum4 -[bs_dim (with_coef s1 C)]/(bs_dim s1) d1; apply: eq_fsum => r rD.
  rewrite A0 // A1 // A2 // A3 // st0 // st1 b0 // b1 // !b2; try (clear; lia).
  rewrite Hv0 Hv1 Ha0 Ha1 !Tz !fixedE // T1 T2; ring.
(* the result *)
rewrite /write_last_two; set C0 := set_col _ _ _; exists (with_coef s1 C0), p0.
rewrite c1 d1 in C0 *.
have CE r j : C0 r j = if j == i then cs (D + r)%N else if j == i.-1 then cs r else bs_coef s1 r j.
  rewrite /C0 /set_col nc subSS subn0 /get_segment; case: eqP => // _.
  by rewrite (_ : (i.+1 - 2 = i.-1)%N) //; clear; lia.
have same0 : same_but_two s1 C0.
  move=> r j jn; rewrite CE; move: jn; rewrite c1 nc => jn.
  have -> : (j == i) = false by move: jn; clear; lia.
  by have -> : (j == i.-1) = false by move: jn; clear; lia.
have stC0 j : (j < 2 * D)%N -> stack C0 j = cs j.
  move=> jD; rewrite /stack; case: ltnP => jl; rewrite CE ?eqxx.
    by have -> : (i.-1 == i) = false by move: i0; clear; lia.
  by rewrite subnKC.
have mC0 j : mulv (2 * D) A (stack C0) j = mulv (2 * D) A cs j.
  by apply: eq_fsum => q qD; rewrite stC0.
split=> //; first by split=> //; exact: wf_with_coef.
  split=> // r j jn; have jl : (j.+2 < bs_ncoef s1)%N by rewrite c1.
  by rewrite /= same0 // C1 // ltnW.
exists (cost C0); first exact: costE.
have diff C : cost C = cost C0 + fsum (4 * D) (fun j => mulv (2 * D) A (fun q => stack C q - cs q) j ^+ 2).
  rewrite /cost (ls_diff (stack C) sol); congr (_ + _); apply: eq_fsum => j _.
  by rewrite mC0.
split.
  move=> C same; have sameC : same_but_two s1 C.
    by move=> r j jn; rewrite same // /= same0.
  exists (cost C); first exact: costE.
  rewrite (diff C); split; first by rewrite ler_addl sq_ge0.
  rewrite ger_addl => /sum_sq0/inj z r j rD.
  rewrite -[bs_ncoef (with_coef s1 C0)]/(bs_ncoef s1) c1 nc => jn.
  have [jl|jl] := ltnP j.+2 i.+1.
    have jl' : (j.+2 < bs_ncoef s1)%N by rewrite c1 nc.
    exact: (etrans (sameC r j jl') (esym (same0 r j jl'))).
  have [ji|ji] := eqVneq j i.
    have /eqP := z (D + r)%N ltac:(move: rD; clear; lia).
    by rewrite st1 subr_eq0 ji /= CE eqxx => /eqP.
  have ji' : j = i.-1 by move: jn jl ji; clear; lia.
  have /eqP := z r ltac:(move: rD; clear; lia).
  rewrite st0 // subr_eq0 ji' /= CE eqxx => /eqP ->.
  by have -> : (i.-1 == i) = false by move: i0; clear; lia.
move=> lk.
have hom r (x : vec F) : (r < D)%N -> mulv (2 * D) A x (2 * D + r)%N = 0 /\ mulv (2 * D) A x (3 * D + r)%N = 0.
  move=> rD; rewrite A2 // A3 //; case: lk => [->|k2E]; first by rewrite !mul0r.
  have uz (u : vec F) x' : (kn s1 i < kn s1 i.+1 -> forall c, (c < k)%N -> u c = weight s1 x' i 2 c) ->
     forall c, (c < k)%N -> u c = 0.
    move=> Hu c ck; rewrite Hu // /weight o1 k2E.
    rewrite derivn_poly0 ?horner0 //; exact: size_basis_poly.
  by rewrite !(uz u2 _ Hu2) ?(uz u3 _ Hu3) ?mulr0 ?addr0 ?mulr0 // ?k2E.
have [y Hy] : exists y : vec F, forall j, (j < 2 * D)%N -> mulv (2 * D) A y j = b j.
  apply: injective_solvable => x H; apply: inj => j jD.
  have [jl|jl] := ltnP j (2 * D); first exact: H.
  have [jm|jm] := ltnP j (3 * D).
    by rewrite -(subnKC jl) (hom _ _ _).1 //; move: jm jl; clear; lia.
  by rewrite -(subnKC jm) (hom _ _ _).2 //; move: jm jD; clear; lia.
have z0 : fsum (4 * D) (fun j => (mulv (2 * D) A y j - b j) ^+ 2) = 0.
  rewrite fsum4 fsum0 // => r rD; rewrite (Hy r) ?(Hy (D + r)%N); try (move: rD; clear; lia).
  rewrite (hom r y rD).1 (hom r y rD).2 !subrr !b2; try (clear; lia).
  by rewrite subrr expr0n /= !addr0.
have solved j : (j < 4 * D)%N -> mulv (2 * D) A cs j = b j.
  move=> jD; apply/eqP; rewrite -subr_eq0; apply/eqP; move: j jD; apply: sum_sq0.
  by rewrite -z0 (ls_diff y sol) ler_addl sq_ge0.
have [v0 hv0 Hv0] := val C0 _ _ _ seg0 Hu0; have [v1 hv1 Hv1] := val C0 _ _ _ seg1 Hu1.
exists v0, v1; split=> // r rD.
have e1 := solved r ltac:(move: rD; clear; lia).
have e2 := solved (D + r)%N ltac:(move: rD; clear; lia).
rewrite -mC0 A0 // st0 // st1 b0 // in e1; rewrite -mC0 A1 // st0 // st1 b1 // in e2.
by rewrite Hv0 Hv1 e1 e2 !fixedE //; split; rewrite addrC subrK.
Qed.

(* segments whose knots and control vertices lie before the replaced ones *)
Lemma add2_prefix (p1 : dvec F) (lambda : F) junk s' x i d :
  addCurveSegment2 eps solve s t p1 lambda junk = Ok s' ->
  dv_size p1 = D -> eps <= last_len s ->
  (k <= i.+1)%N -> (i.+1 + k < n)%N -> (i + 2 * k <= n.+1)%N -> kn s i <= x -> x < kn s i.+1 ->
  exists v v', [/\ evalD eps s x d = Ok v, evalD eps s' x d = Ok v' & forall r, v' r = v r].
Proof.
move=> hs pD el ik iN far x1 x2; have hk := wf_order wfs; have hn := wf_size wfs.
have [s2 [p0 [hs2 _ [wf' o' n' d'] [K' C'] _]]] := add2E lambda junk pD.
rewrite hs in hs2; case: hs2 => e2; rewrite -{}e2 in wf' o' n' d' K' C'.
have Hk j : (j < i + k)%N -> kn s' j = kn s j.
  move=> h2; rewrite K'; last by move: h2 iN; clear; lia.
  by rewrite /ext_kn; have -> : (j <= n - k)%N by move: h2 far; clear; lia.
have pos : kn s i < kn s i.+1 by apply: le_lt_trans x2.
have xl : x <= tmax s - eps.
  rewrite ler_subr_addl; apply: (@le_trans _ _ (last_len s + x)); first by rewrite ler_add2r.
  rewrite /last_len -addrA ger_addl addrC subr_le0; apply: le_trans (ltW x2) _.
  by apply: (kn_mono wfs); move: iN hk hn; clear; lia.
have seg : segment_of eps s x i.
  have -> : segment_of eps s x i = [/\ (k <= i.+1)%N, (i + k < n)%N & kn s i <= x < kn s i.+1].
    rewrite /segment_of ltNge.
    by rewrite (_ : eps <= `|tmax s - x|) //; apply: le_trans (ler_norm _); rewrite ler_subr_addr -ler_subr_addl.
  by split=> //; [apply: ltnW|rewrite x1 x2].
have k1 : kn s' i = kn s i by apply: Hk; move: hk; clear; lia.
have k2 : kn s' i.+1 = kn s i.+1 by apply: Hk; move: hk; clear; lia.
have tm' : tmax s' = t.
  rewrite /tmax n' o' K'; last by move: hk; clear; lia.
  rewrite /ext_kn; have -> : (n.+1 - k = (n - k).+1)%N by move: hk hn; clear; lia.
  by rewrite ltnn subSnn mul1r addrC subrK.
have seg' : segment_of eps s' x i.
  have -> : segment_of eps s' x i = [/\ (k <= i.+1)%N, (i + k < n.+1)%N & kn s' i <= x < kn s' i.+1].
    rewrite /segment_of ltNge tm' o' n'.
    rewrite (_ : eps <= `|t - x|) //; apply: le_trans (ler_norm _).
    by rewrite ler_subr_addr -ler_subr_addl; apply: le_trans xl _; rewrite ler_add2r ltW.
  by split=> //; [move: iN; clear; lia|rewrite k1 k2 x1 x2].
have [v hv Hv] := evalD_piece wfs d seg pos.
have [|v' hv' Hv'] := evalD_piece wf' d seg'; first by rewrite k1 k2.
exists v, v'; split=> // r; rewrite Hv Hv'; congr (_^`(d).[x]).
apply: esym; apply: (spline_piece_ext wfs wf') => //.
- by move: iN; clear; lia.
- by rewrite n'; move: iN; clear; lia.
- by move=> j h1 h2; rewrite Hk.
by move=> j h1 h2; rewrite C' //; have := wf_cols wfs; move: iN h2; clear; lia.
Qed.
End Append2.

(* refused calls *)
Lemma add2_throws (F : realFieldType) (eps : F) solve (s : bspline F) t (p1 : dvec F) lambda junk :
  wf s -> t <= tmax s \/ dv_size p1 <> bs_dim s ->
  addCurveSegment2 eps solve s t p1 lambda junk = Throw ExnSpline.
Proof.
move=> wfs h; rewrite /addCurveSegment2 /addCurveSegment_knots t_maxE //=.
case: h => [le|ne]; first by rewrite ltNge le.
by case: (_ < _) => //=; rewrite (introF eqP ne).
Qed.

Section Pose.
Variables (F : realFieldType) (eps : F) (R : rotation F).
Hypothesis e0 : 0 < eps.
Variable solve : nat -> mat F -> vec F -> vec F.
Hypothesis exact : exact_solver solve.

Lemma add2_pose (s : bspline F) t T lambda junk :
  wf s -> bs_dim s = 6%N -> 0 < last_len s -> tmax s < t ->
  exists s' p0, [/\ addPoseSegment2 R eps solve s t T lambda junk = Ok s',
      eval eps s (tmax s) = Ok p0,
      [/\ wf s', bs_dim s' = 6%N, size (bs_knots s') = (size (bs_knots s)).+1 & tmax s' = t]
    & exists2 E, append_cost eps lambda (tmax s) t p0 (transformationToCurveValue R T) s' E &
      forall C, same_but_two s' C -> exists2 E',
        append_cost eps lambda (tmax s) t p0 (transformationToCurveValue R T) (coef_spline s' C) E' &
        E <= E' /\ (E' <= E -> forall r j, (r < 6)%N -> (j < bs_ncoef s')%N ->
           C r j = bs_coef s' r j)].
Proof.
move=> ws d6 l0 tt.
have [s' [p0 [hs h0 [ws' o1 o2 o3] [hk _] [E hE [H _]]]]] :=
  @add2E _ eps e0 s ws l0 t tt solve exact (poseVec R T) lambda junk (esym d6).
exists s', p0; split=> //.
  split=> //; first by rewrite o3.
  have k2 := wf_order ws; have sz := wf_size ws.
  rewrite /tmax o1 o2 hk; last by lia.
  have -> : ((size (bs_knots s)).+1 - bs_order s = (size (bs_knots s) - bs_order s).+1)%N by lia.
  by rewrite /ext_kn /= ltnn subSnn mul1r addrC subrK.
exists E; first exact: hE.
by move=> C sC; have [E' hE' [le un]] := H C sC; exists E' => //; split=> //; rewrite -d6.
Qed.

Lemma add2_pose_exact (s : bspline F) t T lambda junk : rot_ext R ->
  wf s -> bs_dim s = 6%N -> 0 < last_len s -> tmax s < t -> representable R T ->
  lambda = 0 \/ bs_order s = 2%N ->
  exists s' A A' B, [/\ addPoseSegment2 R eps solve s t T lambda junk = Ok s',
    transformation R eps s (tmax s) = Ok A /\
        transformation R eps s' (tmax s) = Ok A', transformation R eps s' t = Ok B,
        eqm 4 4 A' A & eqm 4 4 B T].
Proof.
move=> rx ws d6 l0 tt [rT bT] lk.
have [s' [p0 [hs h0 [ws' o1 o2 o3] [hk _] [E _ [_ H]]]]] :=
  @add2E _ eps e0 s ws l0 t tt solve exact (poseVec R T) lambda junk (esym d6).
have [v0 [v1 [h1 h2 {}H]]] := H lk.
have d6' : bs_dim s' = 6%N by rewrite o3.
have EE (s1 : bspline F) x v : bs_dim s1 = 6%N -> eval eps s1 x = Ok v ->
    transformation R eps s1 x = Ok (curveValueToTransformation R v).
  by move=> dd; rewrite /eval => hv; rewrite /transformation /evalD6 hv /= dd.
exists s', (curveValueToTransformation R p0), (curveValueToTransformation R v0), (curveValueToTransformation R v1).
split; first exact: hs.
- by split; apply: EE.
- exact: EE.
- by apply: cvt_ext => // r r6; case: (H r); rewrite ?d6.
move=> r c r4 c4; rewrite -(tf_roundtrip rT bT r4 c4); apply: cvt_ext => // y y6.
by case: (H y); rewrite ?d6.
Qed.
End Pose.
