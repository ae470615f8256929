(** C24: checkpointed time stepping loops. *)
From Coq Require Import ZArith Arith List Bool Lia.
From Verif Require Import RevModel RevSpec RevProofs RevInv RevProps CpModel CpSpec CpProofs.
Import ListNotations.
Local Open Scope Z_scope.

(** the number of steps and of checkpoints is one revolve can handle (C23) *)
Definition admissible (steps checkpoints : Z) : Prop :=
  1 <= checkpoints <= ADOLC_CHECKUP /\ 1 <= steps /\ within steps checkpoints ADOLC_REPSUP /\
  steps * (ADOLC_CHECKUP + ADOLC_REPSUP) <= MAXINT.

Lemma states_X : forall {D G} (fd : D * G -> D * G) s n, states fd n s = X fd s (Z.of_nat n).
Proof.
  intros D G fd s n. unfold X. rewrite Nat2Z.id. revert s. induction n as [|n IH]; intros s; [reflexivity|].
  cbn [states]. rewrite IH. clear IH. cbn [Nat.iter nat_rect]. induction n as [|n IH]; [reflexivity|]. cbn [Nat.iter nat_rect]. f_equal. exact IH.
Qed.

(** The recorded loop has the values of the plain loop; the reverse sweep that follows
    returns the adjoint of all the steps, whatever the global bookkeeping object of
    revolve and the stack of snapshots contained before; at most [checkpoints] snapshots
    are held, and for more than one step the stack ends as it began.  Between the sweeps
    the user's globals may change.  [checkpointing] is the recording of the loop,
    [zos_forward] (keep = 1) the replay of a recorded one. *)
Theorem C24_adjoint : forall D G A TP fd (back : D * G -> A -> A) (trace : D * G -> TP * (D * G)) zos rev c x,
  faithful fd back trace rev ->
  admissible (CpModel.steps (inf c)) (checkpoints (inf c)) ->
  retaping (inf c) <> 0 \/ reusable back trace zos rev ->
  hooks (inf c) = true \/ (forall g g' : G, g = g') ->
  let n := Z.to_nat (CpModel.steps (inf c)) in
  exists fuel c1, (forall k, zos_forward fd trace (fuel + k) true x c = Some (c1, fst (states fd n (x, glob c)))) /\
    (forall k, checkpointing fd trace (fuel + k) true x c = Some (c1, fst (states fd n (x, glob c)))) /\
    glob c1 = snd (states fd n (x, glob c)) /\
    forall u x' d' g', exists fuel' c2,
      (forall k, fos_reverse fd trace zos rev (fuel' + k) u x' (mk_mach (inf c1) (num c1) d' g') = Some (c2, adjoint fd back n (x, glob c) u, 0)) /\
      (2 <= CpModel.steps (inf c) \/ stack (inf c) = [] -> stack (inf c2) = stack (inf c)) /\
      (peak (inf c2) <= Nat.max (peak (inf c)) (Z.to_nat (checkpoints (inf c)) + length (stack (inf c))))%nat.
Proof.
  intros D G A TP fd back trace zos rev c x Hf (A1 & A2 & A3 & A4) Hr Hg n.
  set (snaps := checkpoints (inf c)) in *. set (stps := CpModel.steps (inf c)) in *.
  assert (exists v, T stps snaps v) as [v Tv].
  { apply within_B in A3; [|lia|unfold ADOLC_REPSUP; lia]. destruct (numforw_T snaps stps A1 A4 stps ltac:(lia) A3) as (v & _ & Tv). eauto. }
  pose proof (start_inv snaps stps 0 (num c) A1 A2 v Tv) as I.
  pose proof (T_nonneg stps snaps v ltac:(lia) A2 Tv) as V.
  set (c0 := mk_mach (set_ctl (inf c) (mk_args (-1) 0 stps 0)) (num c) x (glob c)).
  assert (J fd snaps stps (retaping (inf c)) (hooks (inf c)) (x, glob c) (stack (inf c)) (peak (inf c)) true v c0) as J0.
  { split; [repeat split; reflexivity|]. split; [exact I|]. split; [intros _; reflexivity|]. split; [|cbn; lia].
    left. cbn. split; [reflexivity|]. split; [lia|]. right. now left. }
  destruct (forward_ok fd back trace rev snaps stps (retaping (inf c)) (hooks (inf c)) A1 A2 A4 Hf Hg (x, glob c) (stack (inf c)) (peak (inf c)) true
    (Z.to_nat (mu true (ctl (inf c0)) v)) true v c0 J0 ltac:(cbn; lia) eq_refl) as (c1 & H1 & H2 & (b' & v' & H3) & H4 & H6 & H5).
  { unfold mu. cbn [c0 inf set_ctl ctl fine]. lia. }
  assert (X fd (x, glob c) stps = states fd n (x, glob c)) as Ex.
  { rewrite states_X. f_equal. unfold n. lia. }
  rewrite Ex in H2.
  assert (forall k, zos_forward fd trace (S (Z.to_nat (mu true (ctl (inf c0)) v)) + k) true x c = Some (c1, fst (states fd n (x, glob c)))) as Hz.
  { intros k. unfold zos_forward, revolveForward. cbn [inf num buf glob]. fold stps. fold c0. rewrite H1. do 2 f_equal. now rewrite <- H2. }
  exists (S (Z.to_nat (mu true (ctl (inf c0)) v))), c1. split; [exact Hz|]. split; [exact Hz|]. split; [now rewrite <- H2|].
  intros u x' d' g'.
  pose proof H3 as (Sm & I' & St & Sk & Pk). pose proof (Inv_range snaps stps A1 _ _ _ _ I') as (R1 & R2 & _).
  set (cr := mk_mach (inf c1) (num c1) x' g').
  assert (J fd snaps stps (retaping (inf c)) (hooks (inf c)) (x, glob c) (stack (inf c)) (peak (inf c)) b' v' cr) as Jr.
  { split; [exact Sm|]. split; [exact I'|]. split; [cbn; lia|]. split; [exact Sk|exact Pk]. }
  destruct (reverse_ok fd back trace zos rev snaps stps (retaping (inf c)) (hooks (inf c)) A1 A2 A4 Hf Hr Hg (x, glob c) (stack (inf c)) (peak (inf c)) u
    (Z.to_nat (mu b' (ctl (inf cr)) v')) b' v' cr (X fd (x, glob c) (stps - 1)) (Some (fst (X fd (x, glob c) (stps - 1)))) Jr) as (c2 & K1 & K2 & K3 & K4 & K5).
  { cbn. lia. }
  { unfold mu. cbn [cr inf]. pose proof (Inv_range snaps stps A1 _ _ _ _ I'). destruct b'; lia. }
  { exact H5. }
  exists (S (Z.to_nat (mu b' (ctl (inf cr)) v'))), (release c2). split; [|split].
  - intros k. unfold fos_reverse. cbn [inf num buf glob]. fold cr. unfold sub_reverse at 1. replace (inf cr) with (inf c1) by reflexivity. rewrite H5.
    specialize (K1 k). replace (fine (ctl (inf cr))) with (stps - 1) in K1 by (cbn; lia).
    replace (stps - (stps - 1)) with 1 in K1 by lia. change (Z.to_nat 1) with 1%nat in K1. cbn [adjoint] in K1.
    assert (rev (fst (trace (X fd (x, glob c) (stps - 1)))) (fst (X fd (x, glob c) (stps - 1))) u = back (X fd (x, glob c) (stps - 1)) u) as -> by apply Hf.
    change (inf c1) with (inf cr); rewrite K1. reflexivity.
  - cbn [release inf set_stack stack]. destruct (Z.eqb_spec stps 1) as [S1|S1]; [|destruct K3 as [z ->]; reflexivity].
    intros [S2|S2]; [lia|]. destruct K3 as [-> | [z ->]]; [now rewrite S2|reflexivity].
  - cbn [release inf set_stack peak]. apply Nat.max_lub; [exact K4|]. destruct (stps =? 1); [destruct K3 as [-> | [z ->]]|destruct K3 as [z ->]]; cbn [tl]; try lia.
    destruct (stack (inf c)); cbn; lia.
Qed.

(** Recording without keeping values (keepTaylors off): the plain loop *)
Theorem C24_value : forall D G TP fd (trace : D * G -> TP * (D * G)) fuel x (c : mach D G TP),
  exists c1, checkpointing fd trace fuel false x c = Some (c1, fst (states fd (Z.to_nat (CpModel.steps (inf c))) (x, glob c))) /\
    inf c1 = inf c /\ num c1 = num c /\ glob c1 = snd (states fd (Z.to_nat (CpModel.steps (inf c))) (x, glob c)).
Proof.
  intros. eexists. unfold checkpointing. rewrite states_X. unfold X, iter. rewrite Nat2Z.id.
  split; [reflexivity|]. cbn. auto.
Qed.

(** First order forward sweeps over the loop: values and tangents of all steps, return code
    not negative, whether or not steps are retaped *)
Theorem C24_tangent : forall D G A V TP fd back (tan : D * G -> V -> V) (trace : D * G -> TP * (D * G)) (rev : TP -> D -> A -> A) fos (c : mach D G TP) x v,
  faithful fd back trace rev -> faithful_tangent fd tan trace fos ->
  retaping (inf c) <> 0 \/ reusable_tangent fd tan trace fos ->
  let n := Z.to_nat (CpModel.steps (inf c)) in
  exists c1 rc, fos_forward trace fos x v c = Some (c1, fst (states fd n (x, glob c)), tangent fd tan n (x, glob c) v, rc) /\ 0 <= rc <= 3.
Proof.
  intros D G A V TP fd back tan trace rev fos c x v Hf Ht Hr n.
  unfold fos_forward. fold n.
  assert (forall n zero d w g ret_c (c : mach D G TP), 
    (zero = true \/ exists p k, sub (inf c) = Some (fst (trace p), k)) -> 0 <= ret_c <= 3 ->
    (retaping (inf c) <> 0 /\ glob c = g) \/ (retaping (inf c) = 0 /\ reusable_tangent fd tan trace fos) ->
    exists c1 rc, fos_loop trace fos n zero d w ret_c c = Some (c1, fst (states fd n (d, g)), tangent fd tan n (d, g) w, rc) /\ 0 <= rc <= 3) as H.
  2: { apply H; [now left|lia|]. destruct (Z.eq_dec (retaping (inf c)) 0) as [E|E]; [right|left; auto]. split; [exact E|]. destruct Hr; [contradiction|assumption]. }
  clear c x v n Hr. induction n as [|n IH]; intros zero d w g ret_c c Sb Rc Hc.
  - exists c, ret_c. split; [reflexivity|exact Rc].
  - cbn [fos_loop]. set (c' := if zero || negb (retaping (inf c) =? 0) then tapeCopy trace d c else c).
    assert (forall (c : mach D G TP), exists t s, trace (d, glob c) = (t, s) /\ tapeCopy trace d c = mk_mach (set_sub (inf c) t None) (num c) (buf c) (snd s) /\ s = fd (d, glob c) /\ t = fst (trace (d, glob c))) as Tc.
    { intros c2. unfold tapeCopy. destruct (trace (d, glob c2)) as [t s] eqn:E. exists t, s. cbn. repeat split. destruct (Hf (d, glob c2)) as [F _]. now rewrite E in F. }
    assert (forall a b, 0 <= a <= 3 -> 0 <= b -> 0 <= mindec a b <= 3) as Md by (intros a b; unfold mindec; destruct (Z.ltb_spec b a); lia).
    assert (retaping (inf c') = retaping (inf c)) as Er.
    { unfold c'. destruct (zero || negb (retaping (inf c) =? 0)); [|reflexivity]. destruct (Tc c) as (t & s & _ & -> & _). reflexivity. }
    assert (forall rc d' w', 0 <= rc -> forall c2 p k, retaping (inf c2) = retaping (inf c) -> sub (inf c2) = Some (fst (trace p), k) ->
        d' = fst (fd (d, g)) -> w' = tan (d, g) w -> (retaping (inf c) <> 0 -> glob c2 = snd (fd (d, g))) ->
        exists c1 rc', fos_loop trace fos n false d' w' (mindec ret_c rc) c2 = Some (c1, fst (states fd (S n) (d, g)), tangent fd tan (S n) (d, g) w, rc') /\ 0 <= rc' <= 3) as Next.
    { intros rc d' w' R c2 p k E2 S2 -> -> Gl. cbn [states tangent]. rewrite (surjective_pairing (fd (d, g))).
      cbn [fst]. apply IH; [right; eauto|auto|]. rewrite E2. destruct Hc as [[Hc1 Hc2]|Hc]; [left|right; exact Hc]. split; [exact Hc1|]. cbn [snd]. auto. }
    assert (exists p k, sub (inf c') = Some (fst (trace p), k)) as (p & k & Sp).
    { unfold c'. destruct zero; [|destruct (negb (retaping (inf c) =? 0))]; cbn [orb].
      1, 2: destruct (Tc c) as (t & s & _ & -> & _ & ->); cbn; eauto.
      destruct Sb as [Sb|Sb]; [discriminate|exact Sb]. }
    unfold run_fos at 1. rewrite Sp. destruct (fos (fst (trace p)) d w) as [[rc d'] w'] eqn:Ef.
    destruct Hc as [[Hc1 Hc2]|[Hc1 Hc2]].
    + rewrite Er, (proj2 (Z.eqb_neq _ _) Hc1), andb_false_r.
      unfold c' in *. rewrite (proj2 (Z.eqb_neq _ _) Hc1) in *. cbn [negb] in *. rewrite orb_true_r in *.
      destruct (Tc c) as (t & s & E1 & E2 & E3 & E4). rewrite E2 in *. cbn [inf set_sub sub] in Sp. injection Sp as E5 _. rewrite <- E5, E4, Hc2 in Ef.
      destruct (Ht (d, g) w) as (rc0 & F & F2). cbn [fst] in F. rewrite F in Ef. injection Ef as <- <- <-.
      apply (Next rc0 _ _ F2 _ p None); try reflexivity; [cbn; now rewrite E5|]. intros _. cbn [glob]. rewrite E3, Hc2. reflexivity.
    + rewrite Er, (proj2 (Z.eqb_eq _ _) Hc1), andb_true_r. destruct (Z.ltb_spec rc 0) as [L|L].
      * destruct (Tc c') as (t & s & E1 & E2 & E3 & E4). rewrite E2. unfold run_fos. cbn [inf set_sub sub]. rewrite E4.
        destruct (Ht (d, glob c') w) as (rc0 & F & F2). cbn [fst] in F. rewrite F.
        destruct (Hc2 _ _ g _ _ _ _ F F2) as [F3 F4]. rewrite F3, F4.
        apply (Next rc0 _ _ F2 _ (d, glob c') None); try reflexivity; [exact Er|contradiction].
      * destruct (Hc2 _ _ g _ _ _ _ Ef L) as [F3 F4]. apply (Next rc _ _ L c' p k); auto. contradiction.
Qed.

(** ** A concrete loop: x := x * x, with exact adjoint u := 2 x u *)
Definition sq (s : Z * unit) : Z * unit := (fst s * fst s, tt).
Definition sq_back (s : Z * unit) (u : Z) : Z := 2 * fst s * u.
Definition sq_trace (s : Z * unit) : unit * (Z * unit) := (tt, sq s).
Definition sq_zos (_ : unit) (d : Z) : option Z := Some (d * d).
Definition sq_rev (_ : unit) (d : Z) (u : Z) : Z := 2 * d * u.
Lemma sq_faithful : faithful sq sq_back sq_trace sq_rev.
Proof. intros s. split; reflexivity. Qed.
Lemma sq_reusable : reusable sq_back sq_trace sq_zos sq_rev.
Proof. intros s d g d' _ u. reflexivity. Qed.
Definition loop (steps checkpoints : Z) : infos Z unit unit := mk_infos steps checkpoints 0 false (mk_args 0 0 0 0) 0 [] None 0.
Definition started (i : infos Z unit unit) : mach Z unit unit := mk_mach i zero_nums 0 tt.

Theorem C24_nontrivial : admissible 5 2 /\ faithful sq sq_back sq_trace sq_rev /\ reusable sq_back sq_trace sq_zos sq_rev /\
  exists c1 c2, checkpointing sq sq_trace 20 true 2 (started (loop 5 2)) = Some (c1, 4294967296) /\
    length (stack (inf c1)) = 2%nat /\
    fos_reverse sq sq_trace sq_zos sq_rev 20 1 0 c1 = Some (c2, 68719476736, 0) /\ stack (inf c2) = [] /\ peak (inf c2) = 2%nat.
Proof.
  split.
  { split; [unfold ADOLC_CHECKUP; lia|]. split; [lia|]. split; [|unfold ADOLC_CHECKUP, ADOLC_REPSUP, MAXINT; lia].
    apply within_B; try (unfold ADOLC_REPSUP; lia). etransitivity; [|apply (B_mono_r 2 2)]; [vm_compute; congruence|unfold ADOLC_REPSUP; lia]. }
  split; [exact sq_faithful|]. split; [exact sq_reusable|].
  eexists. eexists. split; [vm_compute; reflexivity|]. split; [reflexivity|]. split; [vm_compute; reflexivity|]. split; reflexivity.
Qed.

(** Two checkpointed loops on one outer tape share the global object of revolve.  Its
    reverse sweep meets the second loop first, then the first one: the snapshots of the
    first loop are then taken for states of other steps.  The adjoint is wrong and the
    return code is 0 (4 steps and 7 steps, 3 checkpoints each). *)
Theorem C24_two_loops_refuted : exists c1 y1 c2 y2 c2' z2 c1' z1,
  checkpointing sq sq_trace 30 true 2 (started (loop 4 3)) = Some (c1, y1) /\
  checkpointing sq sq_trace 30 true 2 (mk_mach (loop 7 3) (num c1) 0 tt) = Some (c2, y2) /\
  fos_reverse sq sq_trace sq_zos sq_rev 50 1 0 c2 = Some (c2', z2, 0) /\
  fos_reverse sq sq_trace sq_zos sq_rev 50 1 0 (mk_mach (inf c1) (num c2') 0 tt) = Some (c1', z1, 0) /\
  admissible 4 3 /\ admissible 7 3 /\
  z2 = adjoint sq sq_back 7 (2, tt) 1 /\ z1 <> adjoint sq sq_back 4 (2, tt) 1.
Proof.
  do 8 eexists. split; [vm_compute; reflexivity|]. split; [vm_compute; reflexivity|]. split; [vm_compute; reflexivity|]. split; [vm_compute; reflexivity|].
  assert (forall s, 1 <= s <= 10 -> admissible s 3) as Ad.
  { intros s H. split; [unfold ADOLC_CHECKUP; lia|]. split; [lia|]. split; [|unfold ADOLC_CHECKUP, ADOLC_REPSUP, MAXINT; lia].
    apply within_B; try (unfold ADOLC_REPSUP; lia). etransitivity; [|apply (B_mono_r 3 2)]; [|unfold ADOLC_REPSUP; lia]. change (RevProofs.B 3 2) with 10. lia. }
  split; [apply Ad; lia|]. split; [apply Ad; lia|]. split; [vm_compute; reflexivity|]. vm_compute. discriminate.
Qed.

(** A second reverse sweep after one forward sweep: revolve reports an error that is
    ignored, the adjoint is wrong and the return code is 0 *)
Theorem C24_second_reverse_refuted : exists c1 y c2 z c3 z',
  checkpointing sq sq_trace 30 true 2 (started (loop 3 2)) = Some (c1, y) /\
  fos_reverse sq sq_trace sq_zos sq_rev 50 1 0 c1 = Some (c2, z, 0) /\
  fos_reverse sq sq_trace sq_zos sq_rev 50 1 0 c2 = Some (c3, z', 0) /\
  z = adjoint sq sq_back 3 (2, tt) 1 /\ z' <> adjoint sq sq_back 3 (2, tt) 1.
Proof.
  do 6 eexists. split; [vm_compute; reflexivity|]. split; [vm_compute; reflexivity|]. split; [vm_compute; reflexivity|].
  split; [vm_compute; reflexivity|]. vm_compute. discriminate.
Qed.
