(* C33: return code 3 of the zero order sweep means that the selections of the
   program (fmin, fabs, ceil, floor, conditional assignments) come out as recorded. *)
From Coq Require Import List ZArith Bool Arith Lia Reals Lra.
From Flocq Require Import BinarySingleNaN.
Require Import Verif.AdModel Verif.AdRecord Verif.AdSpec Verif.AdReplay Verif.AdPlain
  Verif.AdPlainProofs Verif.AdPlainRun Verif.AdProps Verif.Binary64.
Import ListNotations.
Set Implicit Arguments.

Section Spec.
Variable K : Arith.
Notation val := (V K).

(* A selection made by a call, with the values it looked at. *)
Inductive pick :=
| PMin (a b : val)            (* fmin: the second if b < a *)
| PAbs (a : val)
| PCeil (a : val) | PFloor (a : val)
| PCond (c : val)             (* condassign: c > 0 *)
| PCondEq (c : val)           (* condeqassign: c >= 0 *)
| PCondS (c : val)            (* the forms without else *)
| PCondEqS (c : val).

Definition pick_of (T : mem K) (c : call K) : list pick :=
  match c with
  | CMin _ _ a b | CMinR _ a b => [PMin (T a) (T b)]
  | CUn _ UAbs _ a => [PAbs (T a)]
  | CUn _ UCeil _ a => [PCeil (T a)]
  | CUn _ UFloor _ a => [PFloor (T a)]
  | CCond _ _ c _ _ | CRefCond _ _ c _ _ => [PCond (T c)]
  | CCondEq _ _ c _ _ | CRefCondEq _ _ c _ _ => [PCondEq (T c)]
  | CCondS _ _ c _ | CRefCondS _ _ c _ => [PCondS (T c)]
  | CCondEqS _ _ c _ | CRefCondEqS _ _ c _ => [PCondEqS (T c)]
  | _ => []
  end.

(* All selections of a run of the plain program, in order. *)
Fixpoint picks (ps x : nat -> val) (p : prog K) (q : pst K) : list pick :=
  match p with
  | Ret _ => []
  | Do c p' => pick_of (pT q) c ++
      match meaning ps x (pi q) (pT q) c with
      | Some T' => picks ps x p' (pnext c T' q)
      | None => []
      end
  | If r a pt pf =>
      if truth K r (pT q a) then picks ps x pt (pcmp r a q) else picks ps x pf (pcmp r a q)
  end.

(* no NaN is involved in a selection by sign *)
Definition definite (p : pick) : Prop :=
  match p with
  | PMin _ _ | PCeil _ | PFloor _ => True
  | PAbs a => ordered K a
  | PCond c | PCondEq c | PCondS c | PCondEqS c => ordered K c
  end.

(* n selects what o selected.  The value 0 belongs to both branches of fabs.  For the forms
   without else only: an assignment made now was made when recording. *)
Definition same (o n : pick) : Prop :=
  match o, n with
  | PMin a b, PMin a' b' => ltb K b a = ltb K b' a'
  | PAbs a, PAbs a' => eqb K a' (zero K) = true \/ ltb K a (zero K) = ltb K a' (zero K)
  | PCeil a, PCeil a' => eqb K (vceil K a) (vceil K a') = true
  | PFloor a, PFloor a' => eqb K (vfloor K a) (vfloor K a') = true
  | PCond c, PCond c' => ltb K (zero K) c = ltb K (zero K) c'
  | PCondEq c, PCondEq c' => leb K (zero K) c = leb K (zero K) c'
  | PCondS c, PCondS c' => ltb K (zero K) c' = true -> ltb K (zero K) c = true
  | PCondEqS c, PCondEqS c' => leb K (zero K) c' = true -> leb K (zero K) c = true
  | _, _ => False
  end.

(* Facts about numbers: true for double and for the reals. *)
Record OrderLaws : Prop := {
  l_irr : forall v, ltb K v v = false;
  l_abs : forall v, ordered K v -> eqb K (vabs K v) v = negb (ltb K v (zero K));
  l_zero : eqb K (zero K) (zero K) = true
}.
End Spec.
Arguments PMin {K}.
Arguments PAbs {K}.
Arguments PCeil {K}.
Arguments PFloor {K}.
Arguments PCond {K}.
Arguments PCondEq {K}.
Arguments PCondS {K}.
Arguments PCondEqS {K}.

Section Proofs.
Variable K : Arith.
Notation val := (V K).
Variable L : Laws K.
Variable OL : OrderLaws K.

Lemma zrc_down b (T : mem K) rc : zrc b T rc = 3%Z -> (rc >= 3)%Z.
Proof.
  assert (M : forall a c, (c < 3)%Z -> mindec a c = 3%Z -> (a >= 3)%Z).
  { intros a c Hc. unfold mindec. destruct (Z.ltb_spec c a); lia. }
  assert (M2 : forall a c d, (c < 3)%Z -> (d < 3)%Z -> mindec (mindec a c) d = 3%Z -> (a >= 3)%Z).
  { intros a c d Hc Hd. unfold mindec. destruct (Z.ltb_spec c a), (Z.ltb_spec d c), (Z.ltb_spec d a); lia. }
  destruct b; simpl; intros H; try lia;
    repeat match type of H with
           | context [match ?c with _ => _ end] => destruct c; try lia
           end; try lia; try (apply M in H; lia); try (apply M2 in H; lia).
Qed.
Lemma mindec_le a c : (mindec a c <= a)%Z.
Proof. unfold mindec. destruct (Z.ltb_spec c a); lia. Qed.
Lemma mindec_le2 a c : (mindec a c <= c)%Z.
Proof. unfold mindec. destruct (Z.ltb_spec c a); lia. Qed.
Lemma zrc_le b (T : mem K) rc : (0 <= rc)%Z -> (zrc b T rc <= rc)%Z.
Proof.
  intros H0. pose proof (mindec_le rc 2) as A2. pose proof (mindec_le rc 1) as A1. pose proof (mindec_le rc 0) as A0.
  pose proof (mindec_le (mindec rc 2) 0) as B.
  destruct b; simpl; try lia;
    repeat match goal with
           | |- context [match ?c with _ => _ end] => destruct c; try lia
           end.
Qed.
Lemma zstep_le ps x (o : op K) m m' : (0 <= frc m)%Z -> zstep ps x o m = inl m' ->
  (0 <= frc m' <= frc m)%Z.
Proof.
  unfold zstep. intros H E. destruct (oob (fT m) o); [discriminate|].
  destruct (zabort _ _); [discriminate|]. injection E as <-. cbn [frc].
  split; [apply zrc_ok; auto|now apply zrc_le].
Qed.
Lemma zexec_le ps x t : forall m m', (0 <= frc m)%Z -> @zexec K ps x t m = inl m' ->
  (0 <= frc m' <= frc m)%Z.
Proof.
  induction t as [|o t IH]; intros m m' H E; simpl in E.
  - injection E as <-. lia.
  - destruct (zstep ps x o m) as [m1|] eqn:S; [|discriminate].
    pose proof (zstep_le _ _ _ _ H S). specialize (IH m1 m' ltac:(lia) E). lia.
Qed.

(* sign facts of an ordered value *)
Lemma ord_pos v : ordered K v -> ltb K (zero K) v = negb (leb K v (zero K)).
Proof.
  intros (O1 & O2 & O3 & O4 & O5 & O6). rewrite O1.
  destruct (ltb K v (zero K)), (eqb K v (zero K)), (ltb K (zero K) v); simpl in *; congruence.
Qed.
Lemma ord_nneg v : ordered K v -> leb K (zero K) v = negb (ltb K v (zero K)).
Proof.
  intros (O1 & O2 & O3 & O4 & O5 & O6). rewrite O2.
  destruct (ltb K v (zero K)), (eqb K v (zero K)), (ltb K (zero K) v); simpl in *; congruence.
Qed.
Lemma ord_zero v : ordered K v -> ltb K v (zero K) = false -> ltb K (zero K) v = false ->
  eqb K v (zero K) = true.
Proof.
  intros (O1 & O2 & O3 & O4 & O5 & O6) A B. rewrite A, B in O3.
  destruct (eqb K v (zero K)); congruence.
Qed.
Lemma ord_opp v : ordered K v -> ltb K (zero K) v = true -> ltb K v (zero K) = false.
Proof.
  intros (O1 & O2 & O3 & O4 & O5 & O6) A. rewrite A in O6. simpl in O6. auto.
Qed.

(* op level: code 3 after an operation *)
Definition op_pick (b : bop K) (T : mem K) : list (pick K) :=
  match b with
  | MinOp _ a1 a2 _ _ => [PMin (T a1) (T a2)]
  | AbsVal _ a _ _ => [PAbs (T a)]
  | CeilOp _ a _ _ => [PCeil (T a)]
  | FloorOp _ a _ _ => [PFloor (T a)]
  | CondAssign _ a _ _ _ _ => [PCond (T a)]
  | CondEqAssign _ a _ _ _ _ => [PCondEq (T a)]
  | CondAssignS _ a _ _ _ => [PCondS (T a)]
  | CondEqAssignS _ a _ _ _ => [PCondEqS (T a)]
  | _ => []
  end.
(* the constant c of the operation was computed from the memory T *)
Definition recorded_at (b : bop K) (T : mem K) : Prop :=
  match b with
  | MinOp _ a1 a2 _ c => c = min_cov T a1 a2
  | AbsVal _ a _ c => c = if eqb K (vabs K (T a)) (T a) then one K else zero K
  | CeilOp _ a _ c => c = vceil K (T a)
  | FloorOp _ a _ c => c = vfloor K (T a)
  | CondAssign _ a _ _ _ c | CondEqAssign _ a _ _ _ c
  | CondAssignS _ a _ _ c | CondEqAssignS _ a _ _ c => c = T a
  | _ => True
  end.
Lemma op_same b (T1 T : mem K) rc : (rc <= 3)%Z -> recorded_at b T1 -> zrc b T rc = 3%Z ->
  Forall (@definite K) (op_pick b T1) -> Forall (@definite K) (op_pick b T) ->
  Forall2 (@same K) (op_pick b T1) (op_pick b T).
Proof.
  intros Hrc Rc E D1 D2.
  pose proof (mindec_le2 rc 2) as A2. pose proof (mindec_le2 rc 1) as A1. pose proof (mindec_le2 rc 0) as A0.
  pose proof (mindec_le2 (mindec rc 2) 0) as B.
  assert (C1 : eqb K (one K) (zero K) = false) by apply (l_one0 L).
  assert (C0 : eqb K (zero K) (zero K) = true) by apply OL.
  destruct b; cbn [op_pick] in *; try (apply Forall2_nil); (apply Forall2_cons; [|apply Forall2_nil]);
    cbn [same recorded_at] in *; subst;
    try (inversion D1 as [|? ? O1 _]; inversion D2 as [|? ? O2 _]; subst; cbn [definite] in O1, O2);
    cbn [zrc] in E.
  - unfold min_cov in E. destruct (ltb K (T a2) (T a1)) eqn:Q.
    + destruct (ltb K (T1 a2) (T1 a1)) eqn:Q1; auto. rewrite C1 in E. lia.
    + destruct (ltb K (T1 a2) (T1 a1)) eqn:Q1; auto. rewrite C0 in E.
      destruct (ltb K (T a1) (T a2)); [lia|]. destruct (Nat.eqb_spec a1 a2); [|lia].
      subst. rewrite (l_irr OL) in Q1. discriminate.
  - rewrite (l_abs OL O1) in E.
    destruct (ltb K (T arg) (zero K)) eqn:Q.
    + right. destruct (ltb K (T1 arg) (zero K)); auto. cbn [negb] in E. rewrite C1 in E. lia.
    + destruct (ltb K (zero K) (T arg)) eqn:Q'; [|left; now apply ord_zero].
      right. destruct (ltb K (T1 arg) (zero K)); auto. cbn [negb] in E. rewrite C0 in E. lia.
  - destruct (eqb K (vceil K (T1 arg)) (vceil K (T arg))); auto; lia.
  - destruct (eqb K (vfloor K (T1 arg)) (vfloor K (T arg))); auto; lia.
  - rewrite (ord_pos O1). destruct (ltb K (zero K) (T arg)).
    + destruct (leb K (T1 arg) (zero K)); auto; lia.
    + rewrite (ord_pos O1) in E. destruct (leb K (T1 arg) (zero K)); auto.
      cbn [negb] in E. destruct (eqb K (T arg) (zero K)); lia.
  - rewrite (ord_nneg O1). destruct (leb K (zero K) (T arg)).
    + destruct (ltb K (T1 arg) (zero K)); auto; lia.
    + rewrite (ord_nneg O1) in E. destruct (ltb K (T1 arg) (zero K)); auto. cbn [negb] in E. lia.
  - intros Q. rewrite Q in E. rewrite (ord_pos O1). destruct (leb K (T1 arg) (zero K)); auto; lia.
  - intros Q. rewrite Q in E. rewrite (ord_nneg O1). destruct (ltb K (T1 arg) (zero K)); auto; lia.
Qed.


(* one call *)
Lemma call_same ps1 x1 ps x c (s1 s1' : rec K) l1 (m m' : fstate K) :
  rprims ps1 x1 (prims c) s1 = Some s1' -> sops s1' = sops s1 ++ l1 ->
  (forall r, In r (creates c) -> ~ In r (reads (sT s1) c)) ->
  zexec ps x l1 m = inl m' -> (0 <= frc m <= 3)%Z -> frc m' = 3%Z ->
  Forall (@definite K) (pick_of (sT s1) c) -> Forall (@definite K) (pick_of (fT m) c) ->
  Forall2 (@same K) (pick_of (sT s1) c) (pick_of (fT m) c).
Proof.
  intros R El Cr Z Hm Hm' D1 D2.
  assert (Nr : forall r a, In r (creates c) -> In a (reads (sT s1) c) -> Nat.eqb a r = false).
  { intros r a H1 H2. apply Nat.eqb_neq. intros ->. exact (Cr _ H1 H2). }
  assert (Sel : forall b, op_pick b (sT s1) = pick_of (sT s1) c -> op_pick b (fT m) = pick_of (fT m) c ->
     forall T, op_pick b T = op_pick b (fT m) -> recorded_at b (sT s1) -> zrc b T (frc m) = 3%Z ->
     Forall2 (@same K) (pick_of (sT s1) c) (pick_of (fT m) c)).
  { intros b E1 E2 T Et Rc Hz. rewrite <- E1, <- E2, <- Et. apply op_same with (rc := frc m); auto; try lia.
    - now rewrite E1. - now rewrite Et, E2. }
  Ltac rd R El Z Hm' := cbn [prims knew app kres rprims] in R; unfold rprim in R; cbn -[upd] in R;
      injection R as <-; cbn [sops] in El; rewrite <- ?app_assoc in El; apply app_inv_head in El; subst;
      cbn -[upd zrc tgt] in Z; injection Z as <-; cbn [frc] in Hm'.
  destruct c; try (cbn [pick_of]; constructor; fail).
  - destruct u; try (cbn [pick_of]; constructor; fail).
    + destruct k as [r|]; rd R El Z Hm'.
      * assert (Na : Nat.eqb a r = false) by (apply Nr; cbn; auto).
        apply (Sel (CeilOp K a r (vceil K (upd (sT s1) r (zero K) a))) eq_refl eq_refl (upd (fT m) r (zero K)));
          [| |exact Hm']; cbn [op_pick recorded_at]; unfold upd; rewrite ?Na; auto.
      * apply (Sel (CeilOp K a a (vceil K (sT s1 a))) eq_refl eq_refl (fT m)); [| |exact Hm']; reflexivity.
    + destruct k as [r|]; rd R El Z Hm'.
      * assert (Na : Nat.eqb a r = false) by (apply Nr; cbn; auto).
        apply (Sel (FloorOp K a r (vfloor K (upd (sT s1) r (zero K) a))) eq_refl eq_refl (upd (fT m) r (zero K)));
          [| |exact Hm']; cbn [op_pick recorded_at]; unfold upd; rewrite ?Na; auto.
      * apply (Sel (FloorOp K a a (vfloor K (sT s1 a))) eq_refl eq_refl (fT m)); [| |exact Hm']; reflexivity.
    + destruct k as [r|]; rd R El Z Hm'.
      * assert (Na : Nat.eqb a r = false) by (apply Nr; cbn; auto).
        apply (Sel (AbsVal K a r (if eqb K (vabs K (upd (sT s1) r (zero K) a)) (upd (sT s1) r (zero K) a) then one K else zero K)) eq_refl eq_refl (upd (fT m) r (zero K)));
          [| |exact Hm']; cbn [op_pick recorded_at]; unfold upd; rewrite ?Na; auto.
      * apply (Sel (AbsVal K a a (if eqb K (vabs K (sT s1 a)) (sT s1 a) then one K else zero K)) eq_refl eq_refl (fT m)); [| |exact Hm']; reflexivity.
  - destruct k as [r|]; rd R El Z Hm'.
    + assert (Na : Nat.eqb a r = false) by (apply Nr; cbn; auto).
      assert (Nb : Nat.eqb b r = false) by (apply Nr; cbn; auto).
      apply (Sel (MinOp K a b r (min_cov (upd (sT s1) r (zero K)) a b)) eq_refl eq_refl (upd (fT m) r (zero K)));
          [| |exact Hm']; cbn [op_pick recorded_at]; unfold min_cov, upd; rewrite ?Na, ?Nb; auto.
    + apply (Sel (MinOp K a b a (min_cov (sT s1) a b)) eq_refl eq_refl (fT m)); [| |exact Hm']; reflexivity.
  - rd R El Z Hm'.
    apply (Sel (MinOp K a b b (min_cov (sT s1) a b)) eq_refl eq_refl (fT m)); [| |exact Hm']; reflexivity.
  - rd R El Z Hm'.
    apply (Sel (CondAssign K cond a1 a2 res (sT s1 cond)) eq_refl eq_refl (fT m)); [| |exact Hm']; reflexivity.
  - rd R El Z Hm'.
    apply (Sel (CondAssignS K cond a res (sT s1 cond)) eq_refl eq_refl (fT m)); [| |exact Hm']; reflexivity.
  - rd R El Z Hm'.
    apply (Sel (CondEqAssign K cond a1 a2 res (sT s1 cond)) eq_refl eq_refl (fT m)); [| |exact Hm']; reflexivity.
  - rd R El Z Hm'.
    apply (Sel (CondEqAssignS K cond a res (sT s1 cond)) eq_refl eq_refl (fT m)); [| |exact Hm']; reflexivity.
  - rd R El Z Hm'.
    apply (Sel (CondAssign K cond a1 a2 (tgt (fT m) l) (sT s1 cond)) eq_refl eq_refl (fT m)); [| |exact Hm']; reflexivity.
  - rd R El Z Hm'.
    apply (Sel (CondAssignS K cond a (tgt (fT m) l) (sT s1 cond)) eq_refl eq_refl (fT m)); [| |exact Hm']; reflexivity.
  - rd R El Z Hm'.
    apply (Sel (CondEqAssign K cond a1 a2 (tgt (fT m) l) (sT s1 cond)) eq_refl eq_refl (fT m)); [| |exact Hm']; reflexivity.
  - rd R El Z Hm'.
    apply (Sel (CondEqAssignS K cond a (tgt (fT m) l) (sT s1 cond)) eq_refl eq_refl (fT m)); [| |exact Hm']; reflexivity.
Qed.

Lemma pick_agree c (T T' : mem K) : (forall l, In l (reads T c) -> T' l = T l) -> pick_of T' c = pick_of T c.
Proof.
  intros H. destruct c; cbn [pick_of]; auto; try destruct u; auto; cbn [reads] in H;
    repeat rewrite H by (cbn; tauto); auto.
Qed.
Lemma reads_agree c (T T' : mem K) : (forall l, In l (reads T c) -> T' l = T l) -> reads T' c = reads T c.
Proof.
  intros H. destruct c; cbn [reads] in *; auto;
    repeat rewrite H by (cbn; tauto); auto.
Qed.

Lemma run_same ps1 x1 ps x p : forall (q1 : pst K) (s1 : rec K) (q : pst K) (s : rec K) (m : fstate K) (D : nat -> Prop) (s1' : rec K) l1 m',
  wellbehaved ps1 x1 p q1 -> agree (pD q1) (sT s1) (pT q1) -> si s1 = pi q1 ->
  wellbehaved ps x p q -> agree (pD q) (sT s) (pT q) -> si s = pi q ->
  (forall l, pD q l -> D l) -> rel D s m -> (frc m <= 3)%Z ->
  run ps1 x1 p s1 = Some s1' -> sops s1' = sops s1 ++ l1 ->
  zexec ps x l1 m = inl m' -> frc m' = 3%Z ->
  Forall (@definite K) (picks ps1 x1 p q1) -> Forall (@definite K) (picks ps x p q) ->
  Forall2 (@same K) (picks ps1 x1 p q1) (picks ps x p q).
Proof.
  induction p as [|c p IH|r a pt IHt pf IHf];
    intros q1 s1 q s m D s1' l1 m' W1 A1 I1 W A I Dt R Rc Ru El Z Fr D1 D2; cbn [picks wellbehaved run] in *.
  - constructor.
  - destruct W1 as (W1a & W1b & W1c & W1d & W1e), W as (Wa & Wb & Wc & Wd & We).
    destruct (rprims ps1 x1 (prims c) s1) as [s1a|] eqn:E1; [|discriminate].
    destruct (@call_plain K L ps1 x1 c q1 s1 (pD q1) (fun _ _ => True) W1a W1b W1c W1d A1 I1 ltac:(auto)) as [_ C1].
    destruct (meaning ps1 x1 (pi q1) (pT q1) c) as [T1'|] eqn:M1; [|destruct C1 as [C1 _]; rewrite C1 in E1; discriminate].
    destruct C1 as (s1b & C1 & I1' & _ & _ & A1' & _). rewrite E1 in C1. injection C1 as <-.
    set (k := fun (_ : rec K) (D' : nat -> Prop) => match meaning ps x (pi q) (pT q) c with
                 Some T' => forall l, pD (pnext c T' q) l -> D' l | None => True end).
    destruct (@call_plain K L ps x c q s D k Wa Wb Wc Wd A I Dt) as [Co C].
    assert (Ok : okprims ps x (prims c) s D k).
    { unfold k in *. destruct (meaning ps x (pi q) (pT q) c) as [T'|].
      - destruct C as (s' & _ & _ & _ & _ & _ & Ok). apply Ok. auto.
      - apply C. }
    destruct (@prims_sim K ps1 x1 ps x (prims c) s1 s1a s m D k (prims_stable c) (@call_good K L ps x s c Co) Ok R E1)
      as (lc & Elc & Sim).
    destruct (@run_ops _ _ _ _ _ _ Ru) as [l2 El2].
    assert (l1 = lc ++ l2) as ->.
    { apply (app_inv_head (sops s1)). rewrite <- El, El2, Elc. now rewrite app_assoc. }
    rewrite zexec_app in Z.
    destruct (zexec ps x lc m) as [ma|] eqn:Za; [|discriminate].
    pose proof R as (Rm & _ & _ & R0). unfold rc_ok in R0.
    pose proof (@zexec_le _ _ _ _ _ R0 Za) as Le1.
    pose proof (@zexec_le ps x l2 ma m' ltac:(lia) Z) as Le2.
    apply Forall_app in D1 as [D1 D1'], D2 as [D2 D2'].
    assert (P1 : pick_of (sT s1) c = pick_of (pT q1) c) by (apply pick_agree; auto).
    assert (P2 : pick_of (fT m) c = pick_of (pT q) c).
    { apply pick_agree. intros l Hl. specialize (Wa l Hl). rewrite <- Rm by auto. auto. }
    apply Forall2_app.
    + rewrite <- P1, <- P2. eapply call_same; eauto; try lia; rewrite ?P1, ?P2; auto.
      intros r0 H0 H1. rewrite (@reads_agree c (pT q1) (sT s1)) in H1 by auto. exact (W1b _ H0 H1).
    + destruct (meaning ps x (pi q) (pT q) c) as [T'|] eqn:M.
      * destruct C as (sa & C & I' & _ & _ & A' & _). rewrite C in Sim.
        destruct Sim as (ma' & D' & Za' & R' & Kd). injection Za' as <-. unfold k in Kd.
        assert (Le3 : (frc ma <= 3)%Z) by lia.
        exact (IH (pnext c T1' q1) s1a (pnext c T' q) sa ma D' s1' l2 m' W1e A1' I1' We A' I' Kd R' Le3 Ru El2 Z Fr D1' D2').
      * destruct C as [C _]. rewrite C in Sim. discriminate.
  - destruct W1 as (W1a & W1o & W1), W as (Wa & Wo & W).
    destruct R as (Rm & Ri & Ry & R0).
    assert (Ea1 : sT s1 a = pT q1 a) by auto.
    assert (Ea : sT s a = pT q a) by auto.
    assert (Em : fT m a = pT q a) by (rewrite <- Rm by auto; auto).
    assert (El' : exists l2, sops s1' = sops (rcmp r a s1) ++ l2).
    { destruct (rel_val K r (sT s1 a)); eapply run_ops; eauto. }
    destruct El' as (l2 & El2).
    assert (l1 = Plain (Cmp K (rel_op K r (sT s1 a)) a) :: l2) as ->.
    { apply (app_inv_head (sops s1)). rewrite <- El, El2. cbn [rcmp sops]. now rewrite <- app_assoc. }
    cbn [zexec] in Z. destruct (zstep ps x (Plain (Cmp K (rel_op K r (sT s1 a)) a)) m) as [m1|] eqn:Zs; [|discriminate].
    pose proof (@zstep_le _ _ _ _ _ R0 Zs) as Le1.
    assert (Es : rel_val K r (sT s1 a) = rel_val K r (sT s a)).
    { destruct (Bool.bool_dec (rel_val K r (sT s1 a)) (rel_val K r (sT s a))) as [Es|Es]; auto. exfalso.
      rewrite Ea in Es. pose proof (@rel_diff K r (sT s1 a) _ Wo Es) as Bd.
      unfold zstep in Zs. cbn in Zs. rewrite Em, Bd in Zs. discriminate. }
    assert (R1 : rel D (rcmp r a s) m1).
    { rewrite Ea in Es. pose proof (@rel_same K r (sT s1 a) _ Wo Es) as Bd.
      unfold zstep in Zs. cbn in Zs. rewrite Em, Bd in Zs. injection Zs as <-.
      split; [|split; [|split]]; cbn; auto. now rewrite app_nil_r. unfold rc_ok. cbn in Le1. lia. }
    assert (T1 : truth K r (pT q1 a) = rel_val K r (sT s1 a)) by (rewrite truth_rel; congruence).
    assert (T2 : truth K r (pT q a) = rel_val K r (sT s1 a)) by (rewrite truth_rel; congruence).
    rewrite T1 in W1, D1 |- *. rewrite T2 in W, D2 |- *.
    destruct (rel_val K r (sT s1 a)).
    + apply (IHt (pcmp r a q1) (rcmp r a s1) (pcmp r a q) (rcmp r a s) m1 D s1' l2 m'); auto; lia.
    + apply (IHf (pcmp r a q1) (rcmp r a s1) (pcmp r a q) (rcmp r a s) m1 D s1' l2 m'); auto; lia.
Qed.

(* C33.  The trace was made at x1 (parameters ps1); the sweep at x (parameters ps) returns 3:
   every selection comes out at x as it did at x1. *)
Theorem C33_selections_unchanged T0 chunks last ps1 x1 ps x (p : prog K) (s1 : rec K) g m :
  run ps1 x1 p (start T0 chunks) = Some s1 ->
  wellbehaved ps1 x1 p (pstart T0 chunks) -> wellbehaved ps x p (pstart T0 chunks) ->
  Forall (@definite K) (picks ps1 x1 p (pstart T0 chunks)) ->
  Forall (@definite K) (picks ps x p (pstart T0 chunks)) ->
  zos_forward ps x g (finish last s1) = Done m -> frc m = 3%Z ->
  Forall2 (@same K) (picks ps1 x1 p (pstart T0 chunks)) (picks ps x p (pstart T0 chunks)).
Proof.
  intros Ru W1 W D1 D2 Z Fr.
  destruct (@stock_exec K ps x chunks 0 T0 (mkF g 0 [] 3%Z []) (fun _ => False))
    as (m0 & Z0 & Fi & Fy & Fr0 & Fk & A0).
  { intros l []. }
  simpl in Fi, Fy, Fr0, Fk.
  destruct (@run_ops _ _ _ _ _ _ Ru) as [l1 El].
  unfold zos_forward, finish in Z. rewrite El in Z. unfold start in Z. cbn [sops] in Z.
  rewrite zrun_exec, <- app_assoc, zexec_app, Z0, zexec_app in Z.
  destruct (zexec ps x l1 m0) as [m1|r1] eqn:Z1.
  - cbn in Z. injection Z as <-. cbn in Fr.
    apply (@run_same ps1 x1 ps x p (pstart T0 chunks) (start T0 chunks) (pstart T0 chunks) (start T0 chunks) m0 (stocked chunks) s1 l1 m1); auto.
    + intros l _. reflexivity.
    + intros l _. reflexivity.
    + unfold rel. rewrite Fi, Fy, Fr0. repeat split; try (unfold rc_ok; lia).
      intros l Hl. apply A0. right. unfold stocked in Hl. lia.
    + lia.
  - subst r1. exfalso. clear - Z1 Fr. revert m0 Z1.
    induction l1 as [|o l1 IH]; intros m0 Z1; cbn [zexec] in Z1; [discriminate|].
    destruct (zstep ps x o m0) as [m1|] eqn:E; [eauto|]. injection Z1 as ->.
    unfold zstep in E. destruct (oob (fT m0) o); [discriminate|].
    destruct (zabort (resolve (fT m0) o) (fT m0)) as [cc|] eqn:Ab; [|discriminate].
    injection E as <-. cbn in Fr. subst cc.
    destruct (resolve (fT m0) o); cbn in Ab; try discriminate;
      match type of Ab with context [if ?b then _ else _] => destruct b end; discriminate.
Qed.
End Proofs.

(* ------------------------------------------------------------------ *)
(* IEEE double, any libm *)
Lemma pos_cmp_refl p : Pos.compare_cont Eq p p = Eq.
Proof. change (Pos.compare p p = Eq). apply Pos.compare_refl. Qed.
Theorem binary64_order M : OrderLaws (binary64 M).
Proof.
  constructor; cbn [ltb eqb zero vabs binary64].
  - intros [[]|[]| |[] mm e Hv]; try reflexivity;
      unfold Bltb, SpecFloat.SFltb, SpecFloat.SFcompare; cbn; rewrite Z.compare_refl, pos_cmp_refl; reflexivity.
  - intros v Ho. assert (Nn : is_nan v = false).
    { destruct v as [[]|[]| |[] mm e Hv]; try reflexivity. exfalso. exact (@binary64_nan_not_ordered M Ho). }
    destruct v as [[]|[]| |[] mm e Hv]; try discriminate Nn; try reflexivity.
    unfold Beqb, SpecFloat.SFeqb, SpecFloat.SFcompare; cbn. rewrite Z.compare_refl, pos_cmp_refl. reflexivity.
  - reflexivity.
Qed.
Theorem C33_double M T0 chunks last ps1 x1 ps x (p : prog (binary64 M)) (s1 : rec (binary64 M)) g m :
  run ps1 x1 p (start T0 chunks) = Some s1 ->
  wellbehaved ps1 x1 p (pstart T0 chunks) -> wellbehaved ps x p (pstart T0 chunks) ->
  Forall (@definite (binary64 M)) (picks ps1 x1 p (pstart T0 chunks)) ->
  Forall (@definite (binary64 M)) (picks ps x p (pstart T0 chunks)) ->
  zos_forward ps x g (finish last s1) = Done m -> frc m = 3%Z ->
  Forall2 (@same (binary64 M)) (picks ps1 x1 p (pstart T0 chunks)) (picks ps x p (pstart T0 chunks)).
Proof. apply C33_selections_unchanged; [apply binary64_laws|apply binary64_order]. Qed.

(* Non-vacuity: t = |x0|; r = fmin(t*1, x1) ; condassign(r, x0, t, x1); y = r.
   Traced at (2, 3), swept at (1, 2): code 3; swept at (-1, 2): code 2. *)
Section Example.
Variable M : Libm.
Let K := binary64 M.
Definition ch_prog : prog K :=
  Do (CInd K 0) (Do (CInd K 1) (Do (CUn K UAbs (Fresh 2) 0) (Do (CCopy K 2 3)
  (Do (CMin K Temp 3 1) (Do (CCond K 3 0 3 1) (Do (CDep K 3) (Ret K))))))).
Definition xa : nat -> b64 := fun i => if Nat.eqb i 0 then b2 else b3.
Definition xb : nat -> b64 := fun i => if Nat.eqb i 0 then b1 else b2.
Definition xc : nat -> b64 := fun i => if Nat.eqb i 0 then bneg b1 else b2.
Lemma ch_wb ps (x : nat -> b64) : @wellbehaved K ps x ch_prog (@pstart K (fun _ => bz) []).
Proof. unfold ch_prog. repeat wb_step. Qed.
Lemma ch_definite ps (x : nat -> b64) : is_nan (x 0) = false ->
  Forall (@definite K) (@picks K ps x ch_prog (@pstart K (fun _ => bz) [])).
Proof.
  intros H. cbn [picks ch_prog pick_of meaning pnext pT pi pstart app takes_input upd].
  repeat constructor; cbn [definite]; apply binary64_ordered; exact H.
Qed.
Lemma C33_nontrivial ps (g : mem K) : exists s m m',
  @run K ps xa ch_prog (@start K (fun _ => bz) []) = Some s /\
  @zos_forward K ps xb g (finish 9 s) = Done m /\ frc m = 3%Z /\
  @zos_forward K ps xc g (finish 9 s) = Done m' /\ frc m' = 2%Z.
Proof.
  assert (H : match @run K ps xa ch_prog (@start K (fun _ => bz) []) with
     | Some s => match @zos_forward K ps xb g (finish 9 s), @zos_forward K ps xc g (finish 9 s) with
         | Done m, Done m' => frc m = 3%Z /\ frc m' = 2%Z | _, _ => False end
     | None => False end) by (vm_compute; auto).
  destruct (@run K ps xa ch_prog (@start K (fun _ => bz) [])) as [s|]; [|tauto].
  destruct (@zos_forward K ps xb g (finish 9 s)) as [m|] eqn:E1; [|tauto].
  destruct (@zos_forward K ps xc g (finish 9 s)) as [m'|] eqn:E2; [|tauto].
  exists s, m, m'. tauto.
Qed.
End Example.
