(* C51: several Taylor polynomials through one forward and one reverse sweep, and the drivers
   hess_mat and hessian2 that use the pair. *)
From Coq Require Import List ZArith Bool Arith Lia Reals Lra FunctionalExtensionality.
From Coquelicot Require Import Coquelicot.
Require Import Verif.AdModel Verif.AdRecord Verif.AdSpec Verif.AdReplay Verif.AdRestore
  Verif.AdReal Verif.AdLin Verif.AdReverse Verif.AdTidy Verif.AdDeriv Verif.AdTangent
  Verif.AdTidyCalls Verif.AdPlain Verif.AdPlainRun Verif.AdProps Verif.AdReverseProps Verif.AdDerivProps
  Verif.AdDerivEx
  Verif.HosModel Verif.HosSpec Verif.HosTay Verif.HosFun Verif.HosLoops Verif.HosProofs Verif.HosProps Verif.HosEx
  Verif.HrvModel Verif.HrvLoops Verif.HrvOp Verif.HrvRow Verif.HrvTay Verif.HrvFos Verif.HrvMain Verif.HrvProps
  Verif.StatModel Verif.StatProps
  Verif.DrvModel Verif.DrvSpec Verif.DrvProps Verif.DrvTrace Verif.HrvHess Verif.HrvEx
  Verif.HovModel Verif.HovProofs Verif.HovProps Verif.VrvModel Verif.VrvProofs Verif.VrvRun.
Import ListNotations.
Set Implicit Arguments.
Unset Asymmetric Patterns.
Local Open Scope R_scope.
Notation rrows := (HosModel.rows reals).

(* every operation the reverse sweep meets, in every direction, is one that hos_ov_reverse
   treats direction by direction (VrvRun.separable) *)
Definition directions_ok (p d : nat) (eps : R) (ps x : nat -> R) (xc : nat -> nat -> nat -> R) (L : nat -> nat -> R)
  (n m : nat) (gz : nat -> nat -> nat -> R) (g : rmem) (gc : rrows) (t : list (op reals)) : Prop :=
  forall l h, (l < p)%nat ->
    @hos_forward_keep reals d ps x (fun j => xc j l) g (fun loc i => gc loc (l * d + i)%nat) t = Some h ->
    @ov_fine reals eps d L n m (gz l) (hkk h) t.

Lemma tay_shift k s0 : forall f a, tay k f 0 a -> tay k (fun s => f (s - s0)) s0 a.
Proof.
  induction k as [|k IH]; intros f a; cbn [tay]; rewrite Rminus_eq_0; auto.
  intros [A (f' & B & C)]. split; auto. exists (fun s => f' (s - s0)). split; [|apply IH; exact C].
  destruct B as [e B]. exists e. intros s Hs. 
  assert (D : is_derive f (s - s0) (f' (s - s0))).
  { apply B. unfold ball in *. cbn in *. unfold AbsRing_ball, abs, minus, plus, opp in *. cbn in *.
    replace (s - s0 + - 0) with (s + - s0) by ring. exact Hs. }
  replace (f' (s - s0)) with (scal 1 (f' (s - s0))) by (cbn; unfold scal; cbn; unfold mult; cbn; ring).
  apply (is_derive_comp f (fun s => s - s0)); auto. auto_derive; auto.
Qed.

Section Trace.
Variables (T0 : rmem) (chunks : list nat) (last : nat) (ps1 x1 : nat -> R) (q : prog reals) (s1 : rec reals).
Hypothesis W : @wellbehaved reals ps1 x1 q (@pstart reals T0 chunks).
Hypothesis Fp : fprog q = true.
Hypothesis Hl : (total chunks <= S last)%nat.
Hypothesis Ok : prog_ok (S last) q (fun l => l <? total chunks)%nat (fun _ => false) = true.
Hypothesis Rn : @run reals ps1 x1 q (@start reals T0 chunks) = Some s1.
Let t := finish last s1.

(* p curves through x; curve l has the Taylor coefficients xc i l; u is a curve of weights with
   the Taylor coefficients L.  One pair of sweeps gives, for every curve, the Taylor coefficients
   of every partial derivative of u . F along it. *)
Theorem C51_taylor p d eps ps s0 (x : nat -> R) (xc : nat -> nat -> nat -> R) (u : R -> nat -> R) L
    (g : rmem) (gc : rrows) (gz : nat -> nat -> nat -> R) m :
  (0 < p)%nat -> (0 < d)%nat -> 0 <= eps ->
  (forall j, taylor d (fun s => u s j) s0 (L j)) ->
  smooth_run ps x t 0 g -> reverse_ok eps ps x t 0 g ->
  @zos_forward reals ps x g t = Done m -> (0 <= frc m)%Z ->
  directions_ok p d eps ps x xc L (fi m) (length (fy m)) gz g gc t ->
  exists w v, @hov_wk_forward reals p d ps x xc g gc t = Some w /\ wF (wkW w) = m /\
  @hos_ov_reverse reals eps d p L (fi m) (length (fy m)) gz (wkk w) t = Some v /\
  forall l, (l < p)%nat ->
   (forall X : R -> nat -> R, X s0 = x ->
    (forall i, taylor d (fun s => X s i) s0 (joined (x i) (xc i l))) ->
    forall i, (i < fi m)%nat -> exists G : R -> R,
     locally s0 (fun s => partial (fun y => weighted (length (fy m)) (u s) (traced ps g t y)) (X s) i (G s)) /\
     taylor d G s0 (vrz v l i)) /\
   (forall i, (fi m <= i)%nat -> vrz v l i = gz l i).
Proof.
  intros Hp Hd He HL Sm Rk Z C Dok.
  destruct (@trace_ops T0 chunks last ps1 x1 q s1 W Fp Hl Ok Rn) as (b0 & bs & Et & _). fold t in Et.
  set (all := b0 ++ bs ++ [DeathNot reals 0 last]) in *.
  assert (E : @zexec reals ps x t (@mkF reals g 0 [] 3%Z []) = inl m) by now apply zrun_path.
  assert (Fw : forall l, exists h, @hos_forward_keep reals d ps x (fun j => xc j l) g (fun loc i => gc loc (l * d + i)%nat) t = Some h
             /\ hF (hkH h) = m).
  { intros l. destruct (@C43_forward_completes d eps ps x (fun j => xc j l) g (fun loc i => gc loc (l * d + i)%nat) all m) as [h Hh];
      try (rewrite <- Et); auto.
    exists h. split; [rewrite Et; exact Hh|]. pose proof E as E2. rewrite Et in E2. unfold hos_forward_keep in Hh.
    destruct (@hkrun_stk d ps x (fun j => xc j l) all _ _ _ Hh E2) as [Hfw _].
    now destruct (@hrun_houts d ps x (fun j => xc j l) all _ _ _ Hfw E2) as (_ & Q & _). }
  pose proof (@smooth_dirs d ps x t (@mkF reals g 0 [] 3%Z []) Sm) as Df.
  assert (One : forall l, (l < p)%nat -> exists w v h r,
     @hov_wk_forward reals p d ps x xc g gc t = Some w /\ wF (wkW w) = m /\
     @hos_ov_reverse reals eps d p L (fi m) (length (fy m)) gz (wkk w) t = Some v /\
     @hos_forward_keep reals d ps x (fun j => xc j l) g (fun loc i => gc loc (l * d + i)%nat) t = Some h /\
     @hos_ti_reverse reals eps d L (fi m) (length (fy m)) (@zrows reals) (fun _ => 0) (@zrows reals) (gz l) (hkk h) t = Some r /\
     vrz v l = hrz r).
  { intros l Il. destruct (Fw l) as (h & Hh & Hm).
    pose proof (@C51_directions reals eps p d ps x xc g gc t l Il Hd Df) as Q. rewrite Hh in Q.
    destruct (@hov_wk_forward reals p d ps x xc g gc t) as [w|]; [|contradiction]. destruct Q as (Q1 & _ & Q3).
    specialize (Q3 L (fi m) (length (fy m)) gz (Dok l h Il Hh)).
    set (X := fun s => path d x (fun i => xc i l) (s - s0)).
    assert (X0 : X s0 = x) by (unfold X; rewrite Rminus_eq_0; apply path_0).
    pose proof Sm as Sm'. pose proof Rk as Rk'. pose proof Z as Z'. pose proof Hh as Hh'.
    rewrite <- X0 in Sm', Rk', Z', Hh'.
    destruct (@C43_hos_ti_reverse T0 chunks last ps1 x1 q s1 W Fp Hl Ok Rn d eps ps s0 X (fun i => xc i l)
       u L g (fun loc i => gc loc (l * d + i)%nat) (@zrows reals) (fun _ => 0) (@zrows reals) (gz l) m h)
      as (r & Hr & _); auto.
    { intros i. rewrite X0. apply tay_taylor. unfold X. apply (@tay_shift d s0 (fun s => path d x (fun i => xc i l) s i)), taylor_tay.
      pose proof (path_taylor d x (fun i => xc i l) i) as P. rewrite path_0 in P. exact P. }
    fold t in Hr. destruct (@hos_ov_reverse reals eps d p L (fi m) (length (fy m)) gz (wkk w) t) as [v|] eqn:Ev.
    - exists w, v, h, r. rewrite Q1. change (@zero reals) with 0 in Q3. change (V reals) with R in *. rewrite Hr in Q3. auto 10.
    - change (@zero reals) with 0 in Q3. change (V reals) with R in *. rewrite Hr in Q3. contradiction. }
  destruct (One 0%nat Hp) as (w & v & _ & _ & Ew & Em & Ev & _). exists w, v. split; [exact Ew|]. split; [exact Em|]. split; [exact Ev|].
  intros l Il. destruct (One l Il) as (w' & v' & h & r & Ew' & _ & Ev' & Hh & Hr & Ez).
  rewrite Ew in Ew'. injection Ew' as <-. rewrite Ev in Ev'. injection Ev' as <-. rewrite Ez.
  assert (Two : forall X : R -> nat -> R, X s0 = x ->
    (forall i, taylor d (fun s => X s i) s0 (joined (x i) (xc i l))) ->
    (forall i, (i < fi m)%nat -> exists G : R -> R,
     locally s0 (fun s => partial (fun y => weighted (length (fy m)) (u s) (traced ps g t y)) (X s) i (G s)) /\
     taylor d G s0 (hrz r i)) /\ (forall i, (fi m <= i)%nat -> hrz r i = gz l i)).
  { intros X X0 HX. subst x.
    destruct (@C43_hos_ti_reverse T0 chunks last ps1 x1 q s1 W Fp Hl Ok Rn d eps ps s0 X (fun i => xc i l)
       u L g (fun loc i => gc loc (l * d + i)%nat) (@zrows reals) (fun _ => 0) (@zrows reals) (gz l) m h)
      as (r' & Hr' & P1 & P2 & _); auto.
    fold t in Hr'. change (V reals) with R in *. rewrite Hr in Hr'. injection Hr' as <-. auto. }
  split.
  - intros X X0 HX. apply (Two X X0 HX).
  - apply (Two (fun s => path d x (fun i => xc i l) (s - s0))); [rewrite Rminus_eq_0; apply path_0|].
    intros i. apply tay_taylor. apply (@tay_shift d s0 (fun s => path d x (fun i => xc i l) s i)). apply taylor_tay.
    pose proof (path_taylor d x (fun i => xc i l) i) as P. rewrite path_0 in P. exact P.
Qed.
End Trace.

(* what the sweeps of hess_mat and hessian2 return, drivers.cpp:181-182, 250-251 *)
Definition hov_wk_sweep (ps : nat -> R) (b : buffers) (gc : rrows) (t : list (op reals)) (q : nat) (x : vec) (X : ten) : Z :=
  match @hov_wk_forward reals q 1 ps x X (g0 b) gc t with Some w => frc (wF (wkW w)) | None => (-9)%Z end.
Definition hos_ov_sweep (eps : R) (ps : nat -> R) (b : buffers) (gc : rrows) (gz : ten) (n m : nat) (t : list (op reals))
  (q : nat) (x : vec) (X : ten) (U : mat) : Z * ten :=
  match @hov_wk_forward reals q 1 ps x X (g0 b) gc t with
  | Some w => match @hos_ov_reverse reals eps 1 q U n m gz (wkk w) t with
              | Some v => (rcr b, vrz v) | None => ((-9)%Z, gz) end
  | None => ((-9)%Z, gz)
  end.

Section Program.
Variables (T0 : mem reals) (chunks : list nat) (last : nat) (x1 : nat -> R) (p : prog reals) (s1 : rec reals).
Variables (nmm : bool) (eps : R) (ps : nat -> R) (b : buffers) (r2 : vec -> vec -> vec -> Z * mat) (gc : rrows) (gz : ten).
Let t := finish last s1.
Let n := si s1.
Let s := trace_sweeps nmm ps b t r2 (hov_wk_sweep ps b gc t) (hos_ov_sweep eps ps b gc gz n 1 t).
Let F := computed T0 chunks p ps.

(* the weight of hess_mat: drivers.cpp:178-179 *)
Definition first_weight : mat := fun _ j => if (j =? 0)%nat then 1 else 0.

(* the pair of sweeps with q directions X *)
Lemma pair_of_sweeps q x (X : ten) : recorded T0 chunks last x1 p s1 ps ->
  (forall l, (l < q)%nat -> same_branches_along T0 chunks p s1 ps x (fun i => X i l 0%nat)) -> (0 < q)%nat ->
  0 <= eps -> smooth_run ps x t 0 (g0 b) -> reverse_ok eps ps x t 0 (g0 b) ->
  directions_ok q 1 eps ps x X first_weight n 1 gz (g0 b) gc t -> length (sy s1) = 1%nat ->
  shape s 1 n = true /\ (0 <= hov s q x X)%Z /\
  exists Zz, revov s q x X first_weight = (rcr b, Zz) /\
  forall l i, (l < q)%nat -> (i < n)%nat -> mixed (fun x => F x 0%nat) x (fun i => X i l 0%nat) i (Zz l i 1%nat).
Proof.
  intros Rd Al Hq He Sm Rk Dok M1. pose proof (along_here (Al 0%nat Hq)) as Sb.
  pose proof (locally_singleton _ _ (Sb (fun _ => 0))) as (q0 & A & B & C). rewrite line0 in A, B.
  destruct (@replay T0 chunks last x1 p s1 ps b x q0 Rd A B C) as (m & Z & Cm & _). fold t in Z.
  pose proof Rd as (W & Fp & Nv & Hl & Ok & Rn).
  destruct (@C40_recording reals nmm T0 chunks last ps x1 p s1 Nv Rn) as (Ci & Cd & _ & _ & _).
  destruct (@cnt_m T0 chunks last ps x1 p s1 Nv Rn nmm ps b (fun _ _ _ => (0%Z, fun _ _ => 0)) (fun _ _ _ => 0%Z) (fun _ _ _ _ => (0%Z, fun _ _ _ => 0)) x m Z Cm) as [N M].
  unfold trace_sweeps in N, M. cbn [inds deps] in N, M. fold t in Ci, Cd.
  assert (N' : fi m = n) by (rewrite N; exact Ci). assert (M' : length (fy m) = 1%nat) by (rewrite M, <- M1; exact Cd).
  destruct (@C51_taylor T0 chunks last ps x1 p s1 W Fp Hl Ok Rn q 1 eps ps 0 x X (fun _ _ => 1) first_weight (g0 b) gc gz m)
    as (w & v & Ew & Em & Ev & Q); auto.
  { intros j. apply tay_taylor. eapply tay_coef; [|apply (@tay_cst 1 0 1)]. intros [|k] _; reflexivity. }
  { rewrite N', M'. exact Dok. }
  rewrite N', M' in *. fold t in Ew, Ev.
  split; [apply shape_ok; [rewrite <- M1; exact (eq_sym Cd)|exact (eq_sym Ci)]|].
  split; [unfold s, trace_sweeps; cbn [hov]; unfold hov_wk_sweep; rewrite Ew, Em; exact Cm|].
  exists (vrz v). split; [unfold s, trace_sweeps; cbn [revov]; unfold hos_ov_sweep; change (V reals) with R in *; rewrite Ew; rewrite Ev; reflexivity|].
  intros l i Il Ii. destruct (Q l Il) as [Q1 _].
  destruct (Q1 (line x (fun i => X i l 0%nat)) (line0 _ _)) with (i := i) as (G & G1 & G2); auto.
  { intros j. split.
    - apply filter_forall. intros a k Hk. destruct k as [|[|k]]; [exact I| |lia]. cbn. unfold line. auto_derive. exact I.
    - intros [|[|k]] Hk; [cbn; unfold line; ring| |lia]. cbn [Derive_n joined fact].
      replace (INR (1 * 1)) with 1 by (cbn; ring). rewrite Rmult_1_l. apply is_derive_unique. unfold line. auto_derive; [exact I|ring]. }
  exists G. split; [|eapply taylor_deriv; [|exact G2]; lia].
  eapply filter_imp; [|exact (filter_and _ _ G1 (Al l Il))]. cbv beta. intros a [P Q2].
  unfold partial, directional in *. eapply is_derive_ext_loc; [|exact P].
  eapply filter_imp; [|exact (Q2 (DrvModel.unitv i))]. intros c (q' & A' & B' & C').
  destruct (@replay T0 chunks last x1 p s1 ps b _ q' Rd A' B' C') as (_ & _ & _ & Y). cbv beta.
  cbn [weighted]. rewrite Rplus_0_l, Rmult_1_l. apply Y.
Qed.

(* hess_mat: column l of the result is the Hessian times column l of the tangent matrix *)
Theorem C51_hess_mat q x (V Wm : mat) k : recorded T0 chunks last x1 p s1 ps ->
  (forall l, (l < q)%nat -> same_branches_along T0 chunks p s1 ps x (fun i => V i l)) -> (0 < q)%nat ->
  0 <= eps -> smooth_run ps x t 0 (g0 b) -> reverse_ok eps ps x t 0 (g0 b) -> (0 <= rcr b)%Z ->
  directions_ok q 1 eps ps x (fun i l _ => V i l) first_weight n 1 gz (g0 b) gc t -> length (sy s1) = 1%nat ->
  exists rc W' k', hess_mat s n q x V Wm k = Some (rc, W', k') /\ (0 <= rc)%Z /\
  (forall i l, (i < n)%nat -> (l < q)%nat -> mixed (fun x => F x 0%nat) x (fun j => V j l) i (W' i l)) /\
  (forall i l, (n <= i)%nat \/ (q <= l)%nat -> W' i l = Wm i l).
Proof.
  intros Rd Al Hq He Sm Rk Rc Dok M. destruct (@pair_of_sweeps q x (fun i l _ => V i l) Rd Al Hq He Sm Rk Dok M) as (Sh & Hh & Zz & E & Q).
  unfold hess_mat. rewrite Sh. destruct (Z.ltb_spec (hov s q x (fun i j _ => V i j)) 0); [lia|].
  change (fun _ j : nat => if (j =? 0)%nat then 1 else 0) with first_weight. rewrite E.
  do 3 eexists. split; [reflexivity|]. split; [rewrite mindec_min; lia|]. split.
  - intros i l Ii Il. rewrite (proj2 (Nat.ltb_lt _ _) Ii), (proj2 (Nat.ltb_lt _ _) Il). cbn [andb]. now apply Q.
  - intros i l D. destruct (Nat.ltb_spec i n), (Nat.ltb_spec l q); cbn [andb]; try reflexivity; lia.
Qed.

(* hessian2: the lower triangle holds the second partial derivatives *)
Theorem C51_hessian2 x H k : recorded T0 chunks last x1 p s1 ps ->
  (forall i, same_branches_along T0 chunks p s1 ps x (DrvModel.unitv i)) -> (0 < n)%nat ->
  0 <= eps -> smooth_run ps x t 0 (g0 b) -> reverse_ok eps ps x t 0 (g0 b) -> (0 <= rcr b)%Z ->
  directions_ok n 1 eps ps x (fun i l _ => unit_matrix i l) first_weight n 1 gz (g0 b) gc t -> length (sy s1) = 1%nat ->
  exists rc H' k', hessian2 s n x H k = Some (rc, H', k') /\ (0 <= rc)%Z /\
  (forall i j, (i < n)%nat -> (j <= i)%nat -> mixed (fun x => F x 0%nat) x (DrvModel.unitv i) j (H' i j)) /\
  (forall i j, (n <= i)%nat \/ (i < j)%nat -> H' i j = H i j).
Proof.
  intros Rd Al Hq He Sm Rk Rc Dok M.
  assert (U : forall l, (fun i => unit_matrix i l) = DrvModel.unitv l).
  { intros l. extensionality i. unfold unit_matrix, DrvModel.unitv. destruct (Nat.eqb_spec i l); reflexivity. }
  destruct (@pair_of_sweeps n x (fun i l _ => unit_matrix i l) Rd) as (Sh & Hh & Zz & E & Q); auto.
  { intros l _. cbv beta. rewrite U. apply Al. }
  unfold hessian2. rewrite Sh. destruct (Z.ltb_spec (hov s n x (fun i j _ => unit_matrix i j)) 0); [lia|].
  change (fun _ j : nat => if (j =? 0)%nat then 1 else 0) with first_weight. rewrite E.
  do 3 eexists. split; [reflexivity|]. split; [rewrite mindec_min; lia|]. split.
  - intros i j Ii Ij. rewrite (proj2 (Nat.ltb_lt _ _) Ii), (proj2 (Nat.leb_le _ _) Ij). cbn [andb].
    specialize (Q i j Ii ltac:(lia)). cbv beta in Q. rewrite U in Q. exact Q.
  - intros i j D. destruct (Nat.ltb_spec i n), (Nat.leb_spec j i); cbn [andb]; try reflexivity; lia.
Qed.
End Program.

(* y = atan(x1 * sin(x0)), every point, every number of directions *)
Theorem C51_met (T0 : mem reals) (ps x1 x : nat -> R) (b : buffers) eps q (V : mat) gz gc : exists s1,
  recorded T0 [2%nat] 6 x1 ex14 s1 ps /\ (forall v, same_branches_along T0 [2%nat] ex14 s1 ps x v) /\
  smooth_run ps x (finish 6 s1) 0 (g0 b) /\ reverse_ok eps ps x (finish 6 s1) 0 (g0 b) /\
  directions_ok q 1 eps ps x (fun i l _ => V i l) first_weight 2 1 gz (g0 b) gc (finish 6 s1) /\
  length (sy s1) = 1%nat /\ si s1 = 2%nat /\
  forall y, computed T0 [2%nat] ex14 ps y 0%nat = atan (y 1%nat * Rtrigo_def.sin (y 0%nat)).
Proof.
  destruct (@C44_met T0 ps x1 x b eps) as (s1 & A & B & C & D & E & F & G). exists s1.
  repeat (split; [assumption|]). split; [|auto].
  intros l h _ _. apply ordinary_fine.
  assert (Et : finish 6 s1 = map (@Plain reals) (ex14_ops T0)).
  { destruct A as (_ & _ & _ & _ & _ & R1). destruct (ex14_rec T0 ps x1) as (s1' & R & E'). rewrite R in R1. injection R1 as <-. exact E'. }
  rewrite Et. unfold ex14_ops. rewrite cst1. repeat constructor.
Qed.
