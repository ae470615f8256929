(* C21: polynomial paths, agreement with fos_forward, a program that meets the
   hypotheses, and the operations the property fails for.                   *)
From Coq Require Import List ZArith Bool Arith Lia Reals Lra.
From Coquelicot Require Import Coquelicot.
Require Import Verif.AdModel Verif.AdRecord Verif.AdSpec Verif.AdReplay Verif.AdRestore
  Verif.AdTidyCalls Verif.AdPlain Verif.AdPlainRun Verif.AdProps
  Verif.AdReal Verif.AdLin Verif.AdReverse Verif.AdReverseProps Verif.AdDeriv Verif.AdTangent
  Verif.AdDerivProps Verif.AdDerivEx
  Verif.HosModel Verif.HosSpec Verif.HosTay Verif.HosFun Verif.HosLoops Verif.HosProofs
  Verif.HosProps.
Import ListNotations.
Set Implicit Arguments.
Unset Asymmetric Patterns.
Local Open Scope R_scope.

(* ------------------------------------------------------------------ *)
(* The path hos_forward's arguments describe: x_i + sum_j xc_ij s^(j+1)   *)
Definition path (k : nat) (x : nat -> R) (xc : rrows) (s : R) (i : nat) : R :=
  x i + rsum k (fun j => xc i j * s ^ S j).

Lemma poly_der (a : nat -> R) s : forall n,
  is_derive (fun s => rsum (S n) (fun j => a j * s ^ j)) s (rsum n (fun j => dcoef a j * s ^ j)).
Proof.
  induction n as [|n IH].
  - cbn. eapply der_eq; [apply d_plus; [apply d_const|apply d_mult; apply d_const]|]. cbv beta. ring.
  - change (rsum (S n) (fun j => dcoef a j * s ^ j)) with
      (rsum n (fun j => dcoef a j * s ^ j) + dcoef a n * s ^ n).
    apply (@d_plus (fun s => rsum (S n) (fun j => a j * s ^ j)) (fun s => a (S n) * s ^ S n)); auto.
    eapply der_eq; [apply d_mult; [apply d_const|apply (is_derive_pow (fun t => t) (S n) s 1), d_id]|].
    cbv beta. unfold dcoef. cbn [Nat.pred]. ring.
Qed.
Definition trunc (n : nat) (a : nat -> R) (i : nat) : R := if (i <? n)%nat then a i else 0.
Lemma poly_tay k : forall n (a : nat -> R), tay k (fun s => rsum n (fun j => a j * s ^ j)) 0 (trunc n a).
Proof.
  assert (V : forall n (a : nat -> R), rsum n (fun j => a j * 0 ^ j) = trunc n a 0).
  { intros [|n] a; [reflexivity|]. rewrite rsum_shift. cbn [pow trunc]. unfold trunc. cbn [Nat.ltb Nat.leb].
    rewrite rsum_zero; [ring|]. intros; ring. }
  induction k; intros n a; (split; [apply V|]); auto.
  exists (fun s => rsum (n - 1) (fun j => dcoef a j * s ^ j)). split.
  - apply filter_forall. intros s. destruct n; [exact (d_const 0 s)|].
    replace (S n - 1)%nat with n by lia. apply poly_der.
  - eapply tay_coef; [|apply IHk]. intros i _. unfold dcoef, trunc.
    destruct (Nat.ltb_spec i (n - 1)), (Nat.ltb_spec (S i) n); auto; try lia. ring.
Qed.
Lemma path_taylor k x xc i : taylor k (fun s => path k x xc s i) 0 (joined (path k x xc 0 i) (xc i)).
Proof.
  apply tay_taylor. eapply tay_ext; [|eapply tay_coef; [|apply (@poly_tay k (S k) (joined (x i) (xc i)))]].
  - intros s. cbv beta. rewrite rsum_shift. unfold path. cbn [joined pow]. f_equal. ring.
  - intros q Hq. unfold trunc. destruct (Nat.ltb_spec q (S k)); [|lia].
    destruct q; auto. cbn [joined]. unfold path. rewrite rsum_zero; [ring|]. intros; cbn; ring.
Qed.
Lemma path_0 k x xc : path k x xc 0 = x.
Proof.
  apply FunctionalExtensionality.functional_extensionality. intros i. unfold path.
  rewrite rsum_zero; [ring|]. intros; cbn; ring.
Qed.

(* hos_forward at x with coefficients xc returns the coefficients of the recorded
   function along the path. *)
Theorem C21_path T0 chunks last ps1 x1 p s1 k
  ps (x : nat -> R) xc (g : rmem) (gc : rrows) m st :
  @wellbehaved reals ps1 x1 p (pstart T0 chunks) -> fprog p = true ->
  @run reals ps1 x1 p (start T0 chunks) = Some s1 ->
  let t := finish last s1 in
  (0 < k)%nat ->
  smooth_run ps x t 0 g ->
  @zos_forward reals ps x g t = Done m -> (0 <= frc m)%Z ->
  @hos_forward reals k ps x xc g gc t = Some st ->
  length (hY st) = length (fy m) /\
  forall j, taylor k (fun s => nth j (outputs ps (path k x xc s) g t) 0) 0
                     (joined (nth j (fy m) 0) (nth j (hY st) norow)).
Proof.
  intros W Fp Rn t Hk Sm Hz Hc Hf.
  destruct (@C21_taylor T0 chunks last ps1 x1 p s1 k ps 0 (path k x xc) xc g gc m st) as (_ & L & G);
    rewrite ?path_0; auto.
  intros i. pose proof (path_taylor k x xc i) as P. rewrite path_0 in P. exact P.
Qed.

(* the first coefficient is the tangent fos_forward computes *)
Theorem C21_first_coefficient T0 chunks last ps1 x1 p s1 k
  ps (x : nat -> R) xc (g gd : rmem) (gc : rrows) m st td :
  @wellbehaved reals ps1 x1 p (pstart T0 chunks) -> fprog p = true ->
  @run reals ps1 x1 p (start T0 chunks) = Some s1 ->
  let t := finish last s1 in
  (0 < k)%nat ->
  smooth_run ps x t 0 g ->
  @zos_forward reals ps x g t = Done m -> (0 <= frc m)%Z ->
  @hos_forward reals k ps x xc g gc t = Some st ->
  @fos_forward reals ps x (fun i => xc i 0%nat) g gd t = Some td ->
  forall j, nth j (hY st) norow 0%nat = nth j (tyd td) 0.
Proof.
  intros W Fp Rn t Hk Sm Hz Hc Hf Ht j.
  destruct (@C21_path T0 chunks last ps1 x1 p s1 k ps x xc g gc m st) as (_ & G); auto.
  destruct (@C14_directional_derivative T0 chunks last ps1 x1 p s1 ps 0 (path k x xc)
              (fun i => xc i 0%nat) g gd m td) as [_ G2]; rewrite ?path_0; auto.
  { intros i. pose proof (taylor_tay (path_taylor k x xc i)) as P. exact (@tay_d k 0 Hk _ _ P). }
  pose proof (@tay_d k 0 Hk _ _ (taylor_tay (G j))) as D1.
  apply is_derive_unique in D1. pose proof (is_derive_unique _ _ _ (G2 j)) as D2.
  cbn [joined] in D1. rewrite <- D1. fold t in D2. exact D2.
Qed.

(* ------------------------------------------------------------------ *)
(* The hypotheses can be met: y = atan(x1 * sin(x0)) of AdDerivEx         *)
Lemma hrun_some k ps x xc bs : nofail k bs -> forall (s : hstate reals) m,
  @zexec reals ps x (map (@Plain reals) bs) (hF s) = inl m ->
  exists st, @hrun reals k ps x xc (map (@Plain reals) bs) s = Some st.
Proof.
  induction 1 as [|b bs Hb _ IH]; intros s m E; cbn [map hrun zexec] in *; eauto.
  unfold hstep. destruct (zstep ps x (Plain b) (hF s)) as [f|r]; [|discriminate].
  cbn [resolve]. rewrite Hb. eapply IH. exact E.
Qed.
Lemma hos_some k ps x xc bs (g : rmem) (gc : rrows) m : nofail k bs ->
  @zos_forward reals ps x g (map (@Plain reals) bs) = Done m -> (0 <= frc m)%Z ->
  exists st, @hos_forward reals k ps x xc g gc (map (@Plain reals) bs) = Some st.
Proof.
  intros N G H. pose proof (@zrun_path reals ps x _ _ _ G H) as P.
  exact (@hrun_some k ps x xc bs N (mkH (@mkF reals g 0 [] 3%Z []) gc []) m P).
Qed.
Lemma ex14_nofail k (T0 : rmem) : nofail k (ex14_ops T0).
Proof.
  unfold ex14_ops. rewrite cst1. repeat (apply List.Forall_cons; [reflexivity|]). apply List.Forall_nil.
Qed.
Example ex21_ok k (T0 g : rmem) (gc xc : rrows) (ps ps1 x1 x : nat -> R) : (0 < k)%nat ->
  exists s1 m st,
  @wellbehaved reals ps1 x1 ex14 (@pstart reals T0 [2%nat]) /\ fprog ex14 = true /\
  @run reals ps1 x1 ex14 (@start reals T0 [2%nat]) = Some s1 /\
  smooth_run ps x (finish 6 s1) 0 g /\
  @zos_forward reals ps x g (finish 6 s1) = Done m /\ (0 <= frc m)%Z /\
  @hos_forward reals k ps x xc g gc (finish 6 s1) = Some st.
Proof.
  intros Hk. destruct (@ex14_ok T0 g g ps ps1 x1 x (fun _ => 0)) as (s1 & m & td & A & B & _ & _ & E & F & G & H & _).
  exists s1, m.
  destruct (ex14_rec T0 ps1 x1) as (s2 & R2 & E2). assert (Es : s2 = s1) by congruence. subst s2.
  rewrite E2 in F, G |- *.
  destruct (@hos_some k ps x xc (ex14_ops T0) g gc m (ex14_nofail k T0) G H) as [st Q].
  exists st. split; [exact A|]. split; [exact B|]. split; [exact E|]. split; [exact F|].
  split; [exact G|]. split; [exact H|exact Q].
Qed.

(* ------------------------------------------------------------------ *)
(* pow(x, 2) at x = 0: the second coefficient stays what it was (0), it should
   be 1: "floor(coval != 0.0)" in uni5_for.cpp:3404 sends every exponent other
   than 1 to the branch for fractional exponents.                          *)
Definition sq_prog (K : Arith) (c : V K) : prog K :=
  Do (CInd K 0) (Do (CPow K (Fresh 1) 0 c) (Do (CDep K 1) (Ret K))).
Definition sq_tape (K : Arith) (c : V K) : list (op K) :=
  [Plain (AssignInd K 0); Plain (AssignD0 K 1); Plain (PowOp K 0 1 c); Plain (AssignDep K 1);
   Plain (DeathNot K 0 1)].
Lemma sq_recorded K g ps x c : @record K g [] 1 ps x (sq_prog K c) = Some (sq_tape K c).
Proof. reflexivity. Qed.
Definition sq_T (K : Arith) (g : mem K) (x : nat -> V K) : mem K := upd (upd g 0 (x 0%nat)) 1 (zero K).
Definition sq_C (K : Arith) (gc : rows K) (xc : nat -> nat -> V K) (k : nat) : rows K :=
  row k 1 (fun _ _ => zero K) (row k 0 (fun i _ => xc 0%nat i) gc).
Definition sq_ops (c : R) : list (bop reals) :=
  [AssignInd reals 0; AssignD0 reals 1; PowOp reals 0 1 c; AssignDep reals 1; DeathNot reals 0 1].
Lemma sq_hos (g : rmem) ps x xc gc c k m : @zos_forward reals ps x g (sq_tape reals c) = Done m ->
  (0 <= frc m)%Z ->
  exists st, @hos_forward reals k ps x xc g gc (sq_tape reals c) = Some st /\
  hY st = [@hval reals k ps x xc 1 (PowOp reals 0 1 c) (@sq_T reals g x) (@sq_C reals gc xc k) 1%nat].
Proof.
  intros Z Hc. change (sq_tape reals c) with (map (@Plain reals) (sq_ops c)) in *.
  assert (N : nofail k (sq_ops c)).
  { repeat (apply List.Forall_cons; [reflexivity|]). apply List.Forall_nil. }
  destruct (@hos_some k ps x xc (sq_ops c) g gc m N Z Hc) as [st H].
  exists st. split; [exact H|].
  destruct (@hrun_houts k ps x xc (sq_ops c) _ st m H (@zrun_path reals ps x _ _ _ Z Hc)) as (_ & _ & Q).
  rewrite Q. cbn [hF hC hY fi fT app houts sq_ops hout_of next_i is_ind]. reflexivity.
Qed.
Lemma sq_value K g ps x c : exists e, @zos_forward K ps x g (sq_tape K c) = Done e /\
  frc e = 3%Z /\ fy e = [vpow K (x 0%nat) c].
Proof.
  match goal with |- exists e, ?l = Done e /\ _ =>
    let v := eval vm_compute in l in
    match v with Done ?s => exists s; split; [vm_cast_no_check (eq_refl (Done s))|] end end.
  split; reflexivity.
Qed.
Lemma Rvpow_2 s : Rvpow s 2 = s * s.
Proof.
  assert (I2 : Int_part 2 = 2%Z) by (apply floor_unique; cbn; lra).
  unfold Rvpow. destruct (Rlt_dec 0 s) as [L|L].
  - replace 2 with (1 + 1) by ring. rewrite Rpower_plus, Rpower_1; auto.
  - destruct (Req_EM_T s 0) as [->|N]; [destruct (Req_EM_T 2 0); lra|].
    destruct (Req_EM_T 2 (Rfloor 2)) as [E|E].
    + rewrite I2. change (powerRZ s 2) with (s * (s * 1)). ring.
    + exfalso. apply E. unfold Rfloor. now rewrite I2.
Qed.
Theorem C21_pow_at_zero_refuted (ps : nat -> R) (g : rmem) (gc : rrows) :
  exists p t st m, let x := fun _ : nat => 0 in
    let xc : rrows := fun _ j => match j with 0%nat => 1 | _ => 0 end in
    @record reals g [] 1 ps x p = Some t /\
    @zos_forward reals ps x g t = Done m /\ frc m = 3%Z /\
    @hos_forward reals 2 ps x xc g gc t = Some st /\
    (forall s, outputs ps (path 2 x xc s) g t = [s * s]) /\
    taylor 2 (fun s => nth 0 (outputs ps (path 2 x xc s) g t) 0) 0
             (fun i => match i with 2%nat => 1 | _ => 0 end) /\
    nth 0 (hY st) norow 1%nat = 0.
Proof.
  set (x := fun _ : nat => 0). set (xc := (fun _ j => match j with 0%nat => 1 | _ => 0 end) : rrows).
  destruct (@sq_value reals g ps x 2) as (m & Z1 & Z2 & _).
  destruct (@sq_hos g ps x xc gc 2 2 m Z1 ltac:(rewrite Z2; lia)) as (st & H1 & H2).
  exists (sq_prog reals 2), (sq_tape reals 2), st, m. cbv zeta.
  assert (O : forall s, outputs ps (path 2 x xc s) g (sq_tape reals 2) = [s * s]).
  { intros s. unfold outputs. destruct (@sq_value reals g ps (path 2 x xc s) 2) as (e & -> & _ & ->).
    cbn [vpow reals]. rewrite Rvpow_2.
    assert (Ep : path 2 x xc s 0 = s) by (unfold path, x, xc; cbn [rsum pow]; ring).
    now rewrite Ep. }
  split; [apply sq_recorded|]. split; [exact Z1|]. split; [exact Z2|]. split; [exact H1|].
  split; [exact O|]. split.
  - apply tay_taylor. eapply tay_ext; [intros s; rewrite O; cbn [nth]; reflexivity|].
    assert (I : tay 2 (fun s : R => s) 0 (fun i => match i with 1%nat => 1 | _ => 0 end)).
    { split; [reflexivity|]. exists (fun _ => 1). split; [apply filter_forall; intros s; apply d_id|].
      eapply tay_coef; [|apply tay_const]. intros [|[|i]] Hi; unfold dcoef; cbn; ring. }
    eapply tay_coef; [|apply (@tay_mult 2 _ _ _ _ _ I I)].
    intros [|[|[|i]]] Hi; unfold conv; cbn; try ring. lia.
  - rewrite H2. cbn [nth]. unfold hval.
    assert (E0 : eqb reals (@sq_T reals g x 0%nat) (zero reals) = true) by (cbn; apply Reqb_eq; reflexivity).
    rewrite E0.
    assert (E1 : leb reals (2 : V reals) (zero reals) = false)
      by (cbn; unfold Rleb; destruct (Rle_dec 2 0); auto; lra).
    rewrite E1.
    assert (F1 : Rfloor 1 = 1) by (unfold Rfloor; rewrite (@floor_unique 1 1%Z); auto; cbn; lra).
    assert (E2 : eqb reals (sub reals (2 : V reals) (vfloor reals (if eqb reals (2 : V reals) (zero reals) then zero reals else one reals))) (zero reals) = false).
    { cbn. unfold Reqb at 2. destruct (Req_EM_T 2 0); [lra|]. rewrite F1. unfold Reqb. destruct (Req_EM_T (2 - 1) 0); auto; lra. }
    rewrite E2. cbn [negb]. unfold powfrac, sq_C, lt0, gt0. cbn [up fst].
    cbn [ltb zero one sub ofnat reals INR]. unfold Rltb.
    repeat match goal with |- context [Rlt_dec ?u ?v] => destruct (Rlt_dec u v); try lra; cbn [andb] end.
    unfold row. cbn [up]. unfold put. cbn. reflexivity.
Qed.
(* cbrt is not implemented: hos_forward stops the program *)
Theorem C21_cbrt_refuted (ps x : nat -> R) xc (g : rmem) gc k : (0 < k)%nat -> 
  exists p t, @record reals g [] 1 ps x p = Some t /\
    @hos_forward reals k ps x xc g gc t = None.
Proof.
  intros Hk.
  exists (Do (CInd reals 0) (Do (CUn reals UCbrt (Fresh 1) 0) (Do (CDep reals 1) (Ret reals)))).
  exists [Plain (AssignInd reals 0); Plain (AssignD0 reals 1); Plain (CbrtOp reals 0 1); Plain (AssignDep reals 1);
   Plain (DeathNot reals 0 1)].
  split; [reflexivity|]. destruct k; [lia|]. reflexivity.
Qed.
Print Assumptions C21_taylor.
Print Assumptions C21_pow_at_zero_refuted.
