(* Properties C11, C12, C13, C17, C32: what is recorded is what is replayed, and
   both are what the program means in plain doubles.

   Vocabulary (AdPlain.v): plain ps x p q runs the program p with inputs x and
   parameters ps without any tape; wellbehaved lists what the program must
   respect.  run (AdRecord.v) is the traced run, finish ends the trace,
   zos_forward (AdModel.v) is the forward sweep.  T0 / chunks: values and layout
   of the variables that were alive at trace_on; g: the uninitialised memory of
   the sweep. *)
Require Import List ZArith Bool Arith Lia.
Require Import Verif.AdModel Verif.AdRecord Verif.AdSpec Verif.AdReplay Verif.AdPlain
  Verif.AdPlainProofs Verif.AdPlainRun Verif.Binary64.
Import ListNotations.
Set Implicit Arguments.

Section Props.
Variable K : Arith.
Notation val := (V K).

(* Sweeping over a trace made at (ps1, x1) with inputs x and parameters ps. *)
Lemma sweep (L : Laws K) T0 chunks last ps1 x1 ps x p (s1 : rec K) g :
  run ps1 x1 p (start T0 chunks) = Some s1 ->
  wellbehaved ps x p (pstart T0 chunks) ->
  match plain ps x p (pstart T0 chunks) with
  | Some q => exists m, zos_forward ps x g (finish last s1) = Done m /\
      ((sd s1 = pd q /\ (0 <= frc m)%Z /\ fy m = py q /\ fi m = pi q) \/
       (sd s1 <> pd q /\ frc m = (-1)%Z))
  | None => zos_forward ps x g (finish last s1) = @Failed K \/
      exists m, zos_forward ps x g (finish last s1) = Done m /\ frc m = (-1)%Z
  end.
Proof.
  intros H W.
  destruct (@stock_exec K ps x chunks 0 T0 (mkF g 0 [] 3%Z []) (fun _ => False))
    as (m0 & Z0 & Fi & Fy & Fr & Fk & A0).
  { intros l []. }
  simpl in Fi, Fy, Fr, Fk.
  set (s0 := start T0 chunks) in *.
  assert (P := @plain_run K L ps x p (pstart T0 chunks) s0 (stocked chunks) W).
  assert (Ok : okrun ps x p s0 (stocked chunks) /\ match plain ps x p (pstart T0 chunks) with
      | Some q' => exists s', run ps x p s0 = Some s' /\ si s' = pi q' /\
            sy s' = py q' /\ sd s' = pd q' /\ agree (pD q') (sT s') (pT q')
      | None => run ps x p s0 = None end).
  { apply P; auto. intros l _. reflexivity. }
  clear P. destruct Ok as [Ok Pl].
  assert (R0 : rel (stocked chunks) s0 m0).
  { unfold rel. rewrite Fi, Fy, Fr. repeat split; try (unfold rc_ok; lia).
    intros l Hl. apply A0. right. unfold stocked in Hl. lia. }
  destruct (@run_sim K L ps1 x1 ps x p s0 s1 s0 m0 _ Ok R0 H) as (l1 & El & Sim).
  assert (Zf : forall r, zos_forward ps x g (finish last s1) = r ->
            r = match zexec ps x l1 m0 with
                | inl m => zrun ps x [Plain (DeathNot K 0 last)] m
                | inr r => r end).
  { intros r <-. unfold zos_forward, finish. rewrite El. unfold s0, start. cbn [sops].
    rewrite zrun_exec, <- app_assoc, zexec_app, Z0, zexec_app.
    destruct (zexec ps x l1 m0) as [m|r]; [|reflexivity].
    rewrite zrun_exec. reflexivity. }
  pose proof (Zf _ eq_refl) as Z. clear Zf. rewrite Z.
  destruct (plain ps x p (pstart T0 chunks)) as [q|] eqn:Eq.
  - destruct Pl as (s' & Es & Ei & Ey & Ed & Ag). rewrite Es in Sim.
    destruct Sim as [(d & D1 & D2 & m' & D' & Ze & Rl)|(d1 & d & D1 & D2 & Nd & m' & Ze & Rc)].
    + rewrite Ze. eexists. split; [reflexivity|left].
      destruct Rl as (A & I & Y & C). simpl.
      rewrite D1, <- Ed, D2, ?app_nil_r. repeat split; try congruence; auto.
    + rewrite Ze. eexists. split; [reflexivity|right].
      rewrite D1, <- Ed, D2. split; [intros E; apply Nd; eapply app_inv_head; eauto|auto].
  - rewrite Pl in Sim. destruct Sim as [Ze|(m' & Ze & Rc)]; rewrite Ze; eauto.
Qed.

(* C32: tracing does not change what the program computes: the same comparisons
   come out the same way, the same outputs are produced, and every variable of
   the program has the same value. *)
Theorem C32_tracing_keeps_values (L : Laws K) T0 chunks ps x (p : prog K) (q : pst K) :
  wellbehaved ps x p (pstart T0 chunks) ->
  plain ps x p (pstart T0 chunks) = Some q ->
  exists s, run ps x p (start T0 chunks) = Some s /\
    sy s = py q /\ sd s = pd q /\ si s = pi q /\
    forall l, pD q l -> sT s l = pT q l.
Proof.
  intros W E.
  destruct (@plain_run K L ps x p (pstart T0 chunks) (start T0 chunks) (stocked chunks))
    as [_ P]; auto.
  { intros l _. reflexivity. }
  rewrite E in P. destruct P as (s & R & I & Y & D & A). exists s. auto.
Qed.

(* C32, errors: the traced run is stopped by an error exactly when the plain one
   is. *)
Theorem C32_tracing_keeps_errors (L : Laws K) T0 chunks ps x (p : prog K) :
  wellbehaved ps x p (pstart T0 chunks) ->
  (plain ps x p (pstart T0 chunks) = None <-> run ps x p (start T0 chunks) = None).
Proof.
  intros W.
  destruct (@plain_run K L ps x p (pstart T0 chunks) (start T0 chunks) (stocked chunks))
    as [_ P]; auto.
  { intros l _. reflexivity. }
  destruct (plain ps x p (pstart T0 chunks)) as [q|].
  - destruct P as (s & R & _). rewrite R. split; discriminate.
  - rewrite P. tauto.
Qed.

(* C11 *)
Theorem C11_replay_at_recording_point (L : Laws K) T0 chunks last ps x (p : prog K) (s : rec K) g :
  wellbehaved ps x p (pstart T0 chunks) ->
  run ps x p (start T0 chunks) = Some s ->
  exists m, zos_forward ps x g (finish last s) = Done m /\
    (0 <= frc m)%Z /\ fy m = sy s /\ fi m = si s.
Proof.
  intros W R.
  destruct (plain ps x p (pstart T0 chunks)) as [q|] eqn:E.
  - destruct (@C32_tracing_keeps_values L _ _ _ _ _ _ W E) as (s' & R' & Y & D & I & _).
    rewrite R in R'. injection R' as <-.
    pose proof (@sweep L T0 chunks last ps x ps x p s g R W) as S. rewrite E in S.
    destruct S as (m & Z & [(_ & C & Y' & I')|(N & _)]); [|congruence].
    exists m. repeat split; congruence.
  - apply (@C32_tracing_keeps_errors L _ _ _ _ _ W) in E. congruence.
Qed.

(* C12 *)
Theorem C12_replay_at_new_point (L : Laws K) T0 chunks last ps x1 x (p : prog K) (s1 : rec K) (q : pst K) g m :
  run ps x1 p (start T0 chunks) = Some s1 ->            (* traced at x1 *)
  wellbehaved ps x p (pstart T0 chunks) ->
  plain ps x p (pstart T0 chunks) = Some q ->           (* the program at x *)
  zos_forward ps x g (finish last s1) = Done m ->       (* the sweep at x *)
  (0 <= frc m)%Z ->
  fy m = py q.
Proof.
  intros R W E Z C.
  pose proof (@sweep L T0 chunks last ps x1 ps x p s1 g R W) as S. rewrite E in S.
  destruct S as (m' & Z' & [(_ & _ & Y' & I')|(N & C')]); rewrite Z in Z';
    injection Z' as <-; auto. lia.
Qed.

(* C12: the sweep does come to its end with a non-negative code when no
   comparison changes. *)
Theorem C12_replay_completes (L : Laws K) T0 chunks last ps x1 x (p : prog K) (s1 : rec K) (q : pst K) g :
  run ps x1 p (start T0 chunks) = Some s1 ->
  wellbehaved ps x p (pstart T0 chunks) ->
  plain ps x p (pstart T0 chunks) = Some q ->
  sd s1 = pd q ->
  exists m, zos_forward ps x g (finish last s1) = Done m /\
    (0 <= frc m)%Z /\ fy m = py q.
Proof.
  intros R W E D.
  pose proof (@sweep L T0 chunks last ps x1 ps x p s1 g R W) as S. rewrite E in S.
  destruct S as (m & Z & [(_ & C & Y & _)|(N & _)]); [|contradiction]. eauto.
Qed.

(* C13 *)
Theorem C13_branch_switch_reported (L : Laws K) T0 chunks last ps x1 x (p : prog K) (s1 : rec K) (q : pst K) g :
  run ps x1 p (start T0 chunks) = Some s1 ->
  wellbehaved ps x p (pstart T0 chunks) ->
  plain ps x p (pstart T0 chunks) = Some q ->
  exists m, zos_forward ps x g (finish last s1) = Done m /\
    ((frc m < 0)%Z <-> pd q <> sd s1).
Proof.
  intros R W E.
  pose proof (@sweep L T0 chunks last ps x1 ps x p s1 g R W) as S. rewrite E in S.
  destruct S as (m & Z & [(D & C & Y & _)|(N & C)]); exists m; (split; [exact Z|]).
  - split; [lia|congruence].
  - split; [congruence|lia].
Qed.

(* C17: the trace made with parameters ps1 and swept with ps gives what tracing
   with ps would have given. *)
Theorem C17_new_parameters (L : Laws K) T0 chunks last ps1 ps x1 x (p : prog K) (s1 s : rec K) g :
  run ps1 x1 p (start T0 chunks) = Some s1 ->
  wellbehaved ps x p (pstart T0 chunks) ->
  run ps x p (start T0 chunks) = Some s ->
  exists m, zos_forward ps x g (finish last s1) = Done m /\
    (sd s1 = sd s -> (0 <= frc m)%Z /\ fy m = sy s) /\
    (sd s1 <> sd s -> (frc m < 0)%Z).
Proof.
  intros R W R2.
  destruct (plain ps x p (pstart T0 chunks)) as [q|] eqn:E.
  - destruct (@C32_tracing_keeps_values L _ _ _ _ _ _ W E) as (s' & R' & Y & D & I & _).
    rewrite R2 in R'. injection R' as <-.
    pose proof (@sweep L T0 chunks last ps1 x1 ps x p s1 g R W) as S. rewrite E in S.
    destruct S as (m & Z & [(D1 & C & Y' & _)|(N & C)]); exists m; (split; [exact Z|]);
      rewrite D, Y; split; intros; try contradiction; [split; auto|lia].
  - apply (@C32_tracing_keeps_errors L _ _ _ _ _ W) in E. congruence.
Qed.

(* A subscript out of range at the new point is not passed over in silence. *)
Theorem C13_error_reported (L : Laws K) T0 chunks last ps x1 x (p : prog K) (s1 : rec K) g m :
  run ps x1 p (start T0 chunks) = Some s1 ->
  wellbehaved ps x p (pstart T0 chunks) ->
  plain ps x p (pstart T0 chunks) = None ->
  zos_forward ps x g (finish last s1) = Done m ->
  (frc m < 0)%Z.
Proof.
  intros R W E Z.
  pose proof (@sweep L T0 chunks last ps x1 ps x p s1 g R W) as S. rewrite E in S.
  destruct S as [S|(m' & Z' & C)]; rewrite Z in *; [discriminate|].
  injection Z' as <-. lia.
Qed.
End Props.

(* ------------------------------------------------------------------ *)
(* IEEE double                                                          *)

(* The theorems above for the doubles of the machine, with any libm. *)
Theorem C11_double M T0 chunks last ps x (p : prog (binary64 M)) (s : rec (binary64 M)) g :
  wellbehaved ps x p (pstart T0 chunks) ->
  run ps x p (start T0 chunks) = Some s ->
  exists m, zos_forward ps x g (finish last s) = Done m /\
    (0 <= frc m)%Z /\ fy m = sy s /\ fi m = si s.
Proof. apply C11_replay_at_recording_point, binary64_laws. Qed.

Theorem C12_double M T0 chunks last ps x1 x (p : prog (binary64 M)) (s1 : rec (binary64 M)) (q : pst (binary64 M)) g m :
  run ps x1 p (start T0 chunks) = Some s1 ->
  wellbehaved ps x p (pstart T0 chunks) ->
  plain ps x p (pstart T0 chunks) = Some q ->
  zos_forward ps x g (finish last s1) = Done m ->
  (0 <= frc m)%Z ->
  fy m = py q.
Proof. apply C12_replay_at_new_point, binary64_laws. Qed.

(* ------------------------------------------------------------------ *)
(* Non-vacuity: y = x0*x1; if (y > 0) y = sqrt(y) + p0 else y -= x0*x1.
   Variables at locations 0, 1 (inputs), 2, 3; temporaries 4, 5. *)
Definition ex_prog (K : Arith) : prog K :=
  Do (CInd K 0) (Do (CInd K 1) (Do (CBin K BMul (Fresh 2) 0 1)
  (If RGt 2
     (Do (CParam K 0 4) (Do (CUn K USqrt (Fresh 3) 2) (Do (CBin K BAdd Temp 3 4)
        (Do (CAssign K 3 2) (Do (CDep K 2) (Ret K))))))
     (Do (CEqProd K true (Fresh 5) 0 1 2 true) (Do (CDep K 2) (Ret K)))))).

Definition xpos : nat -> b64 := fun i => if Nat.eqb i 0 then b3 else b2.
Definition xneg : nat -> b64 := fun i => if Nat.eqb i 0 then b3 else bneg b2.
Definition par1 : nat -> b64 := fun _ => b1.
Definition par2 : nat -> b64 := fun _ => b2.

(* proves wellbehaved for a concrete program *)
Ltac wb_red := cbn [reads creates assigns dies pD pnext pcmp pstart newk kres In app
  takes_input gives_output is_helper fold_right] in *; unfold stocked in *;
  cbn [fold_right plus] in *.
Ltac wb_side :=
  lazymatch goal with
  | |- ordered _ _ => apply binary64_ordered; vm_compute; reflexivity
  | |- NoDup _ => wb_red; repeat constructor; cbn [In]; intuition (try lia; try congruence)
  | |- allowed _ _ _ _ => cbn [allowed kres]; try exact I; intuition (try lia; try congruence)
  | |- forall l, _ => let l := fresh "l" in let Hl := fresh "Hl" in
      intros l Hl; wb_red; intuition (subst; try lia; try congruence)
  | |- _ => wb_red; intuition (try lia; try congruence)
  end.
Lemma wb_do (K : Arith) ps x c (p : prog K) q T' :
  (forall l, In l (reads (pT q) c) -> pD q l) ->
  (forall l, In l (creates c) -> ~ In l (reads (pT q) c)) ->
  NoDup (creates c) -> allowed x (pi q) (pT q) c ->
  meaning ps x (pi q) (pT q) c = Some T' ->
  wellbehaved ps x p (pnext c T' q) -> wellbehaved ps x (Do c p) q.
Proof. intros H1 H2 H3 H4 H5 H6. cbn [wellbehaved]. rewrite H5. auto 6. Qed.
Lemma wb_if (K : Arith) ps x r a (pt pf : prog K) q b :
  pD q a -> ordered K (pT q a) -> truth K r (pT q a) = b ->
  wellbehaved ps x (if b then pt else pf) (pcmp r a q) ->
  wellbehaved ps x (If r a pt pf) q.
Proof. intros H1 H2 <- H3. cbn [wellbehaved]. destruct (truth K r (pT q a)); auto. Qed.
Ltac wb_step :=
  match goal with
  | |- wellbehaved _ _ (Ret _) _ => exact I
  | |- wellbehaved _ _ (Do _ _) _ =>
      eapply wb_do; [wb_side|wb_side|wb_side|wb_side|reflexivity|]
  | |- @wellbehaved ?K _ _ (If ?r ?a _ _) ?q =>
      let bb := eval vm_compute in (truth K r (pT q a)) in
      apply wb_if with (b := bb); [wb_side|wb_side|vm_compute; reflexivity|cbv iota]
  end.

Lemma pl_do (K : Arith) ps x c (p : prog K) q T' (P : option (pst K) -> Prop) :
  meaning ps x (pi q) (pT q) c = Some T' ->
  P (plain ps x p (pnext c T' q)) -> P (plain ps x (Do c p) q).
Proof. intros H. cbn [plain]. now rewrite H. Qed.
Lemma pl_if (K : Arith) ps x r a (pt pf : prog K) q b (P : option (pst K) -> Prop) :
  truth K r (pT q a) = b ->
  P (plain ps x (if b then pt else pf) (pcmp r a q)) -> P (plain ps x (If r a pt pf) q).
Proof. intros <-. cbn [plain]. now destruct (truth K r (pT q a)). Qed.
Ltac pl_step :=
  lazymatch goal with
  | |- exists q', @plain ?K ?ps ?x (Do ?c ?p) ?q = Some q' /\ @?Q q' =>
      eapply (@pl_do K ps x c p q _ (fun w => exists q', w = Some q' /\ Q q')); [reflexivity|]
  | |- exists q', @plain ?K ?ps ?x (If ?r ?a ?pt ?pf) ?q = Some q' /\ @?Q q' =>
      let bb := eval vm_compute in (truth K r (pT q a)) in
      apply (@pl_if K ps x r a pt pf q bb (fun w => exists q', w = Some q' /\ Q q'));
      [vm_compute; reflexivity|cbv iota]
  | |- exists q', @plain ?K ?ps ?x (Ret _) ?q = Some q' /\ @?Q q' =>
      exists q; split; [reflexivity|]; vm_compute; reflexivity
  end.

Section Example.
Variable M : Libm.
Let K := binary64 M.
Let T0 : mem K := fun _ => bz.

(* the hypotheses of the theorems hold at two points with different decisions *)
Lemma ex_pos (ps : nat -> V K) : @wellbehaved K ps xpos (ex_prog K) (pstart T0 [2]).
Proof. unfold ex_prog. repeat wb_step. Qed.
Lemma ex_neg (ps : nat -> V K) : @wellbehaved K ps xneg (ex_prog K) (pstart T0 [2]).
Proof. unfold ex_prog. repeat wb_step. Qed.
Lemma ex_plain_pos (ps : nat -> V K) :
  exists q, @plain K ps xpos (ex_prog K) (pstart T0 [2]) = Some q /\ pd q = [true].
Proof. unfold ex_prog. repeat pl_step. Qed.
Lemma ex_plain_neg (ps : nat -> V K) :
  exists q, @plain K ps xneg (ex_prog K) (pstart T0 [2]) = Some q /\ pd q = [false].
Proof. unfold ex_prog. repeat pl_step. Qed.

(* a trace made at xneg is refused at xpos, *)
Example ex_switch (ps : nat -> V K) s g :
  @run K ps xneg (ex_prog K) (start T0 [2]) = Some s ->
  exists m, @zos_forward K ps xpos g (finish 9 s) = Done m /\ (frc m < 0)%Z.
Proof.
  intros R.
  destruct (ex_plain_pos ps) as (q & E & D).
  destruct (ex_plain_neg ps) as (q1 & E1 & D1).
  destruct (@C32_tracing_keeps_values K (binary64_laws M) _ _ _ _ _ _ (ex_neg ps) E1)
    as (s' & R' & _ & Ds & _).
  rewrite R in R'. injection R' as <-.
  destruct (@C13_branch_switch_reported K (binary64_laws M) _ _ 9 ps xneg _ _ s q g R (ex_pos ps) E)
    as (m & Z & C).
  exists m. split; [exact Z|]. apply C. intros H.
  assert (H' : pd q = pd q1) by (etransitivity; [exact H|exact Ds]).
  rewrite D, D1 in H'. discriminate.
Qed.
End Example.
