(* C44: fos_forward with keep = 2 and hos_reverse of degree 1, the second order adjoint sweep
   of the Hessian drivers.

   Modelled code: ADOL-C/src/uni5_for.cpp compiled with _FOS_ and _KEEP_
   (fos_forward, keep = 2): IF_KEEP_WRITE_TAYLOR writes dp_T0[res] and dp_T[res], 261-270. *)
From Coq Require Import List ZArith Bool Arith Lia Reals Lra FunctionalExtensionality.
From Coquelicot Require Import Coquelicot.
Require Import Verif.AdModel Verif.AdRecord Verif.AdSpec Verif.AdReplay Verif.AdRestore
  Verif.AdReal Verif.AdLin Verif.AdReverse Verif.AdTidy Verif.AdDeriv Verif.AdTangent
  Verif.AdTidyCalls Verif.AdPlain Verif.AdPlainRun Verif.AdProps Verif.AdReverseProps Verif.AdDerivProps
  Verif.AdDerivEx
  Verif.HosModel Verif.HosSpec Verif.HosTay Verif.HosFun Verif.HosLoops Verif.HosProofs Verif.HosProps
  Verif.HrvModel Verif.HrvLoops Verif.HrvOp Verif.HrvRow Verif.HrvTay Verif.HrvFos Verif.HrvMain Verif.HrvProps
  Verif.StatModel Verif.StatProps
  Verif.DrvModel Verif.DrvSpec Verif.DrvProps Verif.DrvTrace.
Import ListNotations.
Set Implicit Arguments.
Unset Asymmetric Patterns.
Local Open Scope R_scope.

Section Model.
Variable K : Arith.
Record fkstate := mkFK {
  fkT : tstate K;            (* the sweep *)
  fkk : list (V K)           (* Taylor stack, top first *)
}.
(* one operation; the rows of the stack are (value, tangent) *)
Definition fkstep (ps x xd : nat -> V K) (o : op K) (s : fkstate) : fkstate + option fkstate :=
  let h := fkT s in
  let b := resolve (fT (tF h)) o in
  match tstep ps x xd o h with
  | inl h' => inl (mkFK h' (rev (hpushes 2 b (fT (tF h)) (fun l _ => tD h l)) ++ fkk s))
  | inr (Some h') => inr (Some (mkFK h' (fkk s)))
  | inr None => inr None
  end.
Fixpoint fkrun (ps x xd : nat -> V K) (t : list (op K)) (s : fkstate) : option fkstate :=
  match t with
  | [] => Some s
  | o :: t' => match fkstep ps x xd o s with inl s' => fkrun ps x xd t' s' | inr r => r end
  end.
(* fos_forward(tag, m, n, keep = 2, ..) *)
Definition fos_forward_keep (ps x xd : nat -> V K) (g gd : mem K) (t : list (op K)) : option fkstate :=
  fkrun ps x xd t (mkFK (mkT (mkF g 0 [] 3%Z []) gd []) []).
End Model.

Definition notvec (b : bop reals) : Prop :=
  match b with VecCopy _ _ _ _ | VecAxpy _ _ _ _ _ _ => False | _ => True end.
Lemma tval_frame ps x xd i (b : bop reals) T D l : ~ In l (bwrites b) -> notvec b -> 
  @tval reals ps x xd i b T D l = D l.
Proof.
  intros H N.
  assert (U : forall (D : rmem) r v, r <> l -> @upd reals D r v l = D l).
  { intros D0 r v Hr. unfold upd. destruct (Nat.eqb_spec l r); [congruence|reflexivity]. }
  assert (Q : forall r, bwrites b = [r] -> r <> l) by (intros r E; rewrite E in H; cbn in H; tauto).
  destruct b; cbn [notvec] in N; try contradiction; cbn [tval bwrites] in *; auto;
    try (apply U; apply Q; reflexivity).
  - cbn [In] in H. rewrite !U by tauto. reflexivity.
  - cbn [In] in H. rewrite !U by tauto. reflexivity.
  - destruct (help_special _ _ _ _); apply U; apply Q; reflexivity.
  - repeat match goal with |- (if ?c then _ else _) l = _ => destruct c end; try (apply U; apply Q; reflexivity); reflexivity.
  - destruct (ltb _ _ _); [apply U; apply Q|]; reflexivity.
  - destruct (leb _ _ _); [apply U; apply Q|]; reflexivity.
  - assert (G : forall n q (T D : rmem), @tdot reals n a1 a2 res q T D l = D l).
    { induction n as [|n IH]; intros q T1 D1; cbn [tdot]; auto. rewrite IH. apply U, Q. reflexivity. }
    rewrite G. apply U, Q. reflexivity.
  - rewrite tzero_val. destruct (Nat.leb_spec res l), (Nat.ltb_spec l (res + size)); cbn [andb]; auto.
    exfalso. apply H. apply in_seq. lia.
Qed.

Lemma taken2 (T : rmem) (C C' : rrows) l : C l 0%nat = C' l 0%nat -> @taken reals 2 T C l = @taken reals 2 T C' l.
Proof. intros H. unfold taken. cbn [seq map]. now rewrite H. Qed.
Lemma hpushes2 b (T : rmem) (C C' : rrows) : notvec b -> (forall l, C l 0%nat = C' l 0%nat) -> @hpushes reals 2 b T C = @hpushes reals 2 b T C'.
Proof.
  intros N H. assert (Q : forall l, @taken reals 2 T C l = @taken reals 2 T C' l) by (intros l; apply taken2, H).
  destruct b; cbn [notvec] in N; try contradiction; cbn [hpushes]; rewrite ?Q; auto.
  induction (down (a2 - a1) a1) as [|l ls IH]; cbn [flat_map]; [reflexivity|]. now rewrite Q, IH.
Qed.

Fixpoint fstk (ps x xd : nat -> R) (bs : list (bop reals)) (i : nat) (T D : rmem) (st : list R) : list R :=
  match bs with
  | [] => st
  | b :: bs' => fstk ps x xd bs' (next_i b i) (@zval reals ps x i b T) (@tval reals ps x xd i b T D)
                  (rev (@hpushes reals 2 b T (fun l _ => D l)) ++ st)
  end.
Lemma fstk_hstk eps s0 X (xc : rrows) xd ps : (forall i, tay 1 (fun s => X s i) s0 (joined (X s0 i) (xc i))) ->
  (forall i, xc i 0%nat = xd i) -> forall bs i Dp Tm C D st,
  tracks eps 1 s0 X xc ps bs i Dp Tm C -> List.Forall notvec bs -> (forall l, C l 0%nat = D l) ->
  fstk ps (X s0) xd bs i (Tm s0) D st = hstk 1 xc ps (X s0) bs i (Tm s0) C st.
Proof.
  intros HX Hx. induction bs as [|b bs IH]; intros i Dp Tm C D st Tr Nv HC; cbn [fstk hstk]; auto.
  cbn [tracks] in Tr. destruct Tr as (Hf & HR & HA & (Ho & Hv & Ha) & Rk & Sm & _ & Hf' & Tr). inversion Nv as [|? ? N1 N2]; subst.
  rewrite (@hpushes2 b (Tm s0) (fun l _ => D l) C N1) by (intros l; symmetry; apply HC).
  apply (IH _ _ _ _ _ _ Tr N2). intros l.
  destruct (in_dec Nat.eq_dec l (bwrites b)) as [Hl|Hl].
  - assert (HX1 : forall i, is_derive (fun s => X s i) s0 (xd i)).
    { intros k. rewrite <- Hx. apply (@tay_d 1 s0 ltac:(lia) _ _ (HX k)). }
    assert (Fo : follows s0 Dp Tm D).
    { intros k Hk. rewrite <- HC. apply (@tay_d 1 s0 ltac:(lia) (fun s => Tm s k) _ (Hf k Hk)). }
    pose proof (@op_deriv s0 X xd HX1 ps i b Dp Tm D Fo HR Ho (Hv s0) Ha Sm l (or_intror Hl)) as D1.
    pose proof (@tay_d 1 s0 ltac:(lia) _ _ (Hf' l (or_intror Hl))) as D2. cbn [joined] in D2. cbv beta in D1, D2.
    rewrite <- (is_derive_unique _ _ _ D1). symmetry. apply (is_derive_unique _ _ _ D2).
  - rewrite hval_frame, tval_frame by auto. apply HC.
Qed.

Lemma fkrun_stk ps x xd bs : forall (s st : fkstate reals) m,
  @fkrun reals ps x xd (map (@Plain reals) bs) s = Some st ->
  @zexec reals ps x (map (@Plain reals) bs) (tF (fkT s)) = inl m ->
  @trun reals ps x xd (map (@Plain reals) bs) (fkT s) = Some (fkT st) /\
  fkk st = fstk ps x xd bs (fi (tF (fkT s))) (fT (tF (fkT s))) (tD (fkT s)) (fkk s).
Proof.
  induction bs as [|b bs IH]; intros s st m H E; cbn [map fkrun trun zexec fstk] in *.
  - injection H as <-. auto.
  - unfold fkstep in H. unfold tstep in *. unfold zstep in *. cbn [oob resolve] in *.
    destruct (zabort b (fT (tF (fkT s)))) eqn:Ab; [discriminate|].
    destruct (IH _ _ _ H E) as (Q1 & Q2). cbn [fkT tF tD fkk fi fT] in *. split; [exact Q1|exact Q2].
Qed.
Lemma fkrun_some ps x xd bs : forall (s : fkstate reals) m,
  @zexec reals ps x (map (@Plain reals) bs) (tF (fkT s)) = inl m ->
  exists st, @fkrun reals ps x xd (map (@Plain reals) bs) s = Some st /\ tF (fkT st) = m.
Proof.
  induction bs as [|b bs IH]; intros s m E; cbn [map fkrun zexec] in *.
  - injection E as <-. eauto.
  - unfold fkstep, tstep. unfold zstep in *. cbn [oob resolve] in *.
    destruct (zabort b (fT (tF (fkT s)))) eqn:Ab; [discriminate|].
    match goal with |- exists st, fkrun _ _ _ _ ?s1 = _ /\ _ => apply (IH s1 m E) end.
Qed.

Lemma tidy_notvec N bs : forall D W, tidy N bs D W = true -> List.Forall notvec bs.
Proof.
  induction bs as [|b bs IH]; intros D W H; constructor; cbn [tidy] in H;
    destruct (tidy_op N b D W) as [[D' W']|] eqn:E; try discriminate.
  - unfold tidy_op in E. destruct (below N _ && _)%bool; [|discriminate]. destruct b; cbn [notvec]; auto; discriminate E.
  - eapply IH; eauto.
Qed.

Section Trace.
Variables (T0 : mem reals) (chunks : list nat) (last : nat) (ps1 x1 : nat -> R) (p : prog reals) (s1 : rec reals).
Hypothesis W : @wellbehaved reals ps1 x1 p (pstart T0 chunks).
Hypothesis Fp : fprog p = true.
Hypothesis Hl : (total chunks <= S last)%nat.
Hypothesis Ok : prog_ok (S last) p (fun l => l <? total chunks)%nat (fun _ => false) = true.
Hypothesis Rn : @run reals ps1 x1 p (start T0 chunks) = Some s1.
Let t := finish last s1.

(* The trace of p swept at x in direction v with keep = 2, then hos_reverse of degree 1 with
   weights u: coefficient 0 of result i is the i-th partial derivative of u . F at x,
   coefficient 1 its derivative in direction v. *)
Theorem C44_second_order_adjoint eps ps x v u (g gd : rmem) (gT : rrows) (gF : rmem) (gA : rrows) (gz : nat -> nat -> R) m :
  0 <= eps -> smooth_run ps x t 0 g -> reverse_ok eps ps x t 0 g ->
  @zos_forward reals ps x g t = Done m -> (0 <= frc m)%Z ->
  exists st r, @fos_forward_keep reals ps x v g gd t = Some st /\ 
  @fos_forward reals ps x v g gd t = Some (fkT st) /\ tF (fkT st) = m /\
  @hos_reverse reals eps 1 u (fi m) (length (fy m)) gT gF gA gz (fkk st) t = Some r /\
  (forall i, (i < fi m)%nat -> exists G : R -> R,
     locally 0 (fun s => partial (fun x => weighted (length (fy m)) u (traced ps g t x)) (line x v s) i (G s)) /\
     G 0 = hrz r i 0%nat /\ is_derive G 0 (hrz r i 1%nat)) /\
  (forall i, (fi m <= i)%nat -> hrz r i = gz i).
Proof.
  intros He Sm Rk Z C. set (X := line x v). set (xc := (fun i _ => v i) : rrows). set (gc := (fun l _ => gd l) : rrows).
  assert (X0 : X 0 = x) by (apply functional_extensionality; intros k; unfold X, line; ring).
  destruct (@trace_ops T0 chunks last ps1 x1 p s1 W Fp Hl Ok Rn) as (b0 & bs & Et & S0 & Ti & Hh & Hr). fold t in Et.
  set (all := b0 ++ bs ++ [DeathNot reals 0 last]) in *.
  assert (HX : forall i, tay 1 (fun s => X s i) 0 (joined (X 0 i) (xc i))).
  { intros i. apply taylor_tay. split.
    - apply filter_forall. intros s k Hk. destruct k as [|[|k]]; [exact I| |lia]. cbn. unfold X, line. auto_derive. exact I.
    - intros [|[|k]] Hk; [cbn; ring| |lia]. cbn [Derive_n joined fact]. replace (xc i 0%nat) with (v i) by reflexivity.
      replace (INR (1 * 1)) with 1 by (cbn; ring). rewrite Rmult_1_l. apply is_derive_unique. unfold X, line. auto_derive; [exact I|ring]. }
  destruct (@C43_forward_completes 1 eps ps x xc g gc all m) as [hst Hk]; try (rewrite <- Et); auto.
  assert (E : @zexec reals ps x t (@mkF reals g 0 [] 3%Z []) = inl m) by now apply zrun_path.
  pose proof E as E2. rewrite Et in E2. 
  destruct (@fkrun_some ps x v all (@mkFK reals (mkT (@mkF reals g 0 [] 3%Z []) gd []) []) m E2) as (st & Hst & Fm).
  destruct (@fkrun_stk ps x v all _ _ _ Hst E2) as [Ht Hs].
  rewrite <- X0 in Sm, Rk, Z.
  destruct (@C43_hos_ti_reverse T0 chunks last ps1 x1 p s1 W Fp Hl Ok Rn 1 eps ps 0 X xc (fun _ => u)
     (fun i j => match j with 0%nat => u i | S _ => 0 end) g gc gT gF gA gz m hst) as (r & Hr1 & Hr2 & Hr3 & _ & _); auto.
  { intros i. apply tay_taylor, HX. }
  { intros q. apply tay_taylor. eapply tay_coef; [|apply (@tay_cst 1 0 (u q))]. intros [|j] _; reflexivity. }
  { rewrite X0. fold t. rewrite Et. exact Hk. }
  exists st, r. split; [unfold fos_forward_keep; rewrite Et; exact Hst|].
  split; [unfold fos_forward; rewrite Et; exact Ht|]. split; [exact Fm|].
  assert (SK : fkk st = hkk hst).
  { rewrite Hs. destruct (@hkrun_stk 1 ps x xc all _ _ _ Hk E2) as [Hfw Hst2]. rewrite Hst2.
    cbn [fkT tF tD fkk fi fT hkH hF hC hkk] in *.
    destruct (@hrun_houts 1 ps x xc all _ _ _ Hfw E2) as (Nf & _ & _).
    assert (Tf : tfollows 1 0 (fun _ => False) (fun _ : R => g) gc) by (intros l []).
    assert (Sb : bsmooth ps (X 0) all 0 g) by (apply smooth_b; rewrite <- Et; exact Sm).
    assert (Rb : brok eps 0 X ps all 0 g) by (apply reverse_b; rewrite <- Et; exact Rk).
    pose proof (@trace_tracked eps 1 0 X xc ps ltac:(lia) HX all Hh [] 0%nat (fun _ => g) (fun _ => False) gc Tf
       ltac:(intros l []) Hr Sb Nf Rb) as Tr.
    pose proof (@fstk_hstk eps 0 X xc v ps HX ltac:(reflexivity) all 0%nat (fun _ => False) (fun _ => g) gc gd [] Tr) as Q.
    rewrite X0 in Q. apply Q; [|reflexivity].
    unfold all. apply Forall_app. split; [|apply Forall_app; split].
    - eapply List.Forall_impl; [|exact S0]. intros b (n & f & vs & ->). exact I.
    - eapply tidy_notvec; exact Ti.
    - repeat constructor. }
  split; [unfold hos_reverse; rewrite SK; exact Hr1|]. split; [|exact Hr3].
  intros i Hi. destruct (Hr2 i Hi) as (G & G1 & G2). exists G. split; [exact G1|].
  split; [eapply taylor_value; exact G2|]. eapply taylor_deriv; [|exact G2]. lia.
Qed.
End Trace.

(* the derivative in direction v of the i-th partial derivative of h at x, which exists near x
   on the line *)
Definition mixed (h : vec -> R) (x v : vec) (i : nat) (d : R) : Prop :=
  exists G : R -> R, locally 0 (fun s => partial h (line x v s) i (G s)) /\ is_derive G 0 d.
Lemma mixed_second h x v i d : mixed h x v i d -> second h x v i d.
Proof.
  intros (G & G1 & G2) g (eps & Hg). eapply is_derive_ext_loc; [|exact G2].
  assert (L : locally 0 (fun s => Rabs s < eps)).
  { exists eps. intros s Hs. change (Rabs (s - 0) < eps) in Hs. now rewrite Rminus_0_r in Hs. }
  eapply filter_imp; [|exact (filter_and _ _ G1 L)]. cbv beta. intros s [A B]. specialize (Hg s B).
  unfold partial, directional in *. rewrite <- (is_derive_unique _ _ _ A). apply (is_derive_unique _ _ _ Hg).
Qed.

(* the second order sweep of the drivers: lagra_hess_vec, drivers.cpp:266-299 *)
Definition second_sweep (eps : R) (ps : nat -> R) (b : buffers) (gTr gAr gzr : rrows) (gF : rmem) (n m : nat)
  (t : list (op reals)) (x v u : vec) : Z * mat :=
  match @fos_forward_keep reals ps x v (g0 b) (gd0 b) t with
  | Some st => match @hos_reverse reals eps 1 u n m gTr gF gAr gzr (fkk st) t with
               | Some r => (rcr b, hrz r) | None => ((-9)%Z, fun _ _ => 0) end
  | None => ((-9)%Z, fun _ _ => 0)
  end.

Section Program.
Variables (T0 : mem reals) (chunks : list nat) (last : nat) (x1 : nat -> R) (p : prog reals) (s1 : rec reals).
Variables (nmm : bool) (eps : R) (ps : nat -> R) (b : buffers) (gTr gAr gzr : rrows) (gF : rmem)
  (hv : nat -> vec -> ten -> Z) (ro : nat -> vec -> ten -> mat -> Z * ten).
Let t := finish last s1.
Let s := trace_sweeps nmm ps b t (second_sweep eps ps b gTr gAr gzr gF (si s1) (length (sy s1)) t) hv ro.
Let F := computed T0 chunks p ps.

(* near x on the line the program takes the branches it took when it was recorded *)
Definition same_branches_along (x v : vec) : Prop :=
  locally 0 (fun a => same_branches T0 chunks p s1 ps (line x v a)).

Lemma along_here x v : same_branches_along x v -> same_branches T0 chunks p s1 ps x.
Proof. intros H. apply locally_singleton in H. rewrite line0 in H. exact H. Qed.

Theorem C44_lagra_hess_vec x v u r k : recorded T0 chunks last x1 p s1 ps -> same_branches_along x v ->
  0 <= eps -> smooth_run ps x t 0 (g0 b) -> reverse_ok eps ps x t 0 (g0 b) -> (0 <= rcr b)%Z ->
  exists rc w k', lagra_hess_vec s (length (sy s1)) (si s1) x v u r k = Some (rc, w, k') /\ (0 <= rc)%Z /\
  (forall i, (i < si s1)%nat -> mixed (fun x => weighted (length (sy s1)) u (F x)) x v i (w i)) /\
  (forall i, (si s1 <= i)%nat -> w i = r i).
Proof.
  intros Rd Al He Sm Rk Rc. pose proof (along_here Al) as Sb.
  pose proof (locally_singleton _ _ (Sb (fun _ => 0))) as (q & A & B & C). rewrite line0 in A, B.
  destruct (@replay T0 chunks last x1 p s1 ps b x q Rd A B C) as (m & Z & Cm & _). fold t in Z.
  pose proof Rd as (W & Fp & Nv & Hl & Ok & Rn).
  destruct (@C40_recording reals nmm T0 chunks last ps x1 p s1 Nv Rn) as (Ci & Cd & _ & _ & _).
  destruct (@cnt_m T0 chunks last ps x1 p s1 Nv Rn nmm ps b (fun _ _ _ => (0%Z, fun _ _ => 0)) hv ro x m Z Cm) as [N M].
  unfold trace_sweeps in N, M. cbn [inds deps] in N, M. fold t in Ci, Cd. 
  assert (N' : fi m = si s1) by (rewrite N; exact Ci). assert (M' : length (fy m) = length (sy s1)) by (rewrite M; exact Cd).
  destruct (@C44_second_order_adjoint T0 chunks last ps x1 p s1 W Fp Hl Ok Rn eps ps x v u (g0 b) (gd0 b) gTr gF gAr gzr m He Sm Rk Z Cm)
    as (st & r2 & E1 & E2 & E3 & E4 & E5 & _). rewrite N', M' in *.
  assert (Sh : shape s (length (sy s1)) (si s1) = true).
  { apply shape_ok; [exact (eq_sym Cd)|exact (eq_sym Ci)]. }
  unfold lagra_hess_vec. rewrite Sh.
  assert (Fs : fos s x v = (frc m, at_ (fy m), at_ (tyd (fkT st)))).
  { unfold s, trace_sweeps. cbn [fos]. fold t in E2. rewrite E2, E3. reflexivity. }
  rewrite Fs. destruct (Z.ltb_spec (frc m) 0); [lia|].
  assert (R2 : rev2 s x v u = (rcr b, hrz r2)).
  { unfold s, trace_sweeps. cbn [rev2]. unfold second_sweep. fold t in E1, E4. rewrite E1, E4. reflexivity. }
  rewrite R2. do 3 eexists. split; [reflexivity|]. split; [rewrite mindec_min; lia|]. split.
  - intros i Hi. unfold fill. rewrite (proj2 (Nat.ltb_lt _ _) Hi). destruct (E5 i Hi) as (G & G1 & _ & G3).
    exists G. split; [|exact G3]. eapply filter_imp; [|exact (filter_and _ _ G1 Al)]. cbv beta. intros a [P Q].
    unfold partial, directional in *. eapply is_derive_ext_loc; [|exact P].
    eapply filter_imp; [|exact (Q (DrvModel.unitv i))]. intros c (q' & A' & B' & C').
    destruct (@replay T0 chunks last x1 p s1 ps b _ q' Rd A' B' C') as (_ & _ & _ & Y). cbv beta.
    apply weighted_ext. intros j _. f_equal. apply Y.
  - intros i Hi. unfold fill. destruct (Nat.ltb_spec i (si s1)); [lia|reflexivity].
Qed.

Theorem C44_hess_vec x v r k : recorded T0 chunks last x1 p s1 ps -> same_branches_along x v ->
  0 <= eps -> smooth_run ps x t 0 (g0 b) -> reverse_ok eps ps x t 0 (g0 b) -> (0 <= rcr b)%Z -> length (sy s1) = 1%nat ->
  exists rc w k', hess_vec s (si s1) x v r k = Some (rc, w, k') /\ (0 <= rc)%Z /\
  (forall i, (i < si s1)%nat -> mixed (fun x => F x 0%nat) x v i (w i)) /\
  (forall i, (si s1 <= i)%nat -> w i = r i).
Proof.
  intros Rd Al He Sm Rk Rc M. destruct (@C44_lagra_hess_vec x v (fun _ => 1) r k Rd Al He Sm Rk Rc) as (rc & w & k' & A & B & C & D).
  rewrite M in A, C. exists rc, w, k'. split; [exact A|]. split; [exact B|]. split; [|exact D].
  intros i Hi. destruct (C i Hi) as (G & G1 & G2). exists G. split; [|exact G2]. eapply filter_imp; [|exact G1].
  cbv beta. intros a P. unfold partial, directional in *. eapply is_derive_ext; [|exact P]. intros c. cbv beta. cbn [weighted]. rewrite Rplus_0_l. apply Rmult_1_l.
Qed.

(* hessian: the lower triangle holds the second partial derivatives *)
Theorem C44_hessian x H k : recorded T0 chunks last x1 p s1 ps -> (forall i, same_branches_along x (DrvModel.unitv i)) ->
  0 <= eps -> smooth_run ps x t 0 (g0 b) -> reverse_ok eps ps x t 0 (g0 b) -> (0 <= rcr b)%Z -> length (sy s1) = 1%nat ->
  exists rc H' k', hessian s (si s1) x H k = Some (rc, H', k') /\ (0 <= rc)%Z /\
  (forall i j, (i < si s1)%nat -> (j <= i)%nat -> mixed (fun x => F x 0%nat) x (DrvModel.unitv i) j (H' i j)) /\
  (forall i j, (si s1 <= i)%nat \/ (i < j)%nat -> H' i j = H i j).
Proof.
  intros Rd Al He Sm Rk Rc M. unfold hessian. set (n := si s1).
  assert (forall todo i0 rc H k, (i0 + todo = n)%nat -> (0 <= rc)%Z ->
    (forall i j, (i < i0)%nat -> (j <= i)%nat -> mixed (fun x => F x 0%nat) x (DrvModel.unitv i) j (H i j)) ->
    exists rc' H' k', hessian_rows s n todo i0 rc x H k = Some (rc', H', k') /\ (0 <= rc')%Z /\
      (forall i j, (i < n)%nat -> (j <= i)%nat -> mixed (fun x => F x 0%nat) x (DrvModel.unitv i) j (H' i j)) /\
      (forall i j, (n <= i)%nat \/ (i < j)%nat -> H' i j = H i j)) as Q.
  { induction todo as [|todo IH]; intros i0 rc H1 k1 Si Hr Hi; cbn [hessian_rows].
    - do 3 eexists. split; [reflexivity|]. split; [exact Hr|]. split; [|reflexivity]. intros i j I. apply Hi. lia.
    - destruct (@C44_hess_vec x (DrvModel.unitv i0) (fun _ => 0) k1 Rd (Al i0) He Sm Rk Rc M) as (rc1 & w & k2 & A & P & B & _).
      fold n in A, B. rewrite A. rewrite mindec_min. destruct (Z.ltb_spec (Z.min rc rc1) 0) as [L|L]; [lia|].
      destruct (IH (S i0) (Z.min rc rc1) (lower_row H1 i0 w) k2 ltac:(lia) ltac:(lia)) as (rc2 & H2 & k3 & A2 & P2 & B2 & C2).
      + intros i j I J. unfold lower_row. destruct (Nat.eqb_spec i i0) as [->|Ne]; cbn [andb].
        * rewrite (proj2 (Nat.leb_le _ _) J). apply B; lia.
        * apply Hi; lia.
      + exists rc2, H2, k3. split; [exact A2|]. split; [exact P2|]. split; [exact B2|]. intros i j Ij. rewrite C2 by exact Ij. unfold lower_row.
        destruct (Nat.eqb_spec i i0) as [->|Ne]; cbn [andb]; [|reflexivity]. destruct (Nat.leb_spec j i0); [lia|reflexivity]. }
  destruct (Q n 0%nat 3%Z H k) as (rc & H' & k' & A & P & B & C); [lia|lia|intros; lia|]. exists rc, H', k'. auto.
Qed.
End Program.
