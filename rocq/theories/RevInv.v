(** The invariant of a series of calls of revolve. *)
From Coq Require Import ZArith Arith List Bool Lia.
From Verif Require Import RevModel RevSpec RevProofs.
Import ListNotations.
Local Open Scope Z_scope.

Section Inv.
Variables snaps steps : Z.
Hypothesis Hsnaps : 1 <= snaps <= ADOLC_CHECKUP.
Hypothesis Hsteps : 1 <= steps.
Hypothesis Hint : steps * (ADOLC_CHECKUP + ADOLC_REPSUP) <= MAXINT.

(** the stored checkpoints: the segment from one to the next can be reversed *)
Fixpoint chain (n : nat) (c : Z -> Z) (top v : Z) : Prop :=
  match n with
  | O => top = 0 /\ v = 0
  | S n => exists v1 v2, c (Z.of_nat n) < top /\ chain n c (c (Z.of_nat n)) v1 /\
             T (top - c (Z.of_nat n)) (snaps - Z.of_nat n) v2 /\ v = v1 + v2
  end.
Lemma chain_ext : forall n c c' top v, (forall i, 0 <= i < Z.of_nat n -> c' i = c i) -> chain n c top v -> chain n c' top v.
Proof.
  induction n as [|n IH]; intros c c' top v E H; cbn [chain] in *; [exact H|].
  destruct H as (v1 & v2 & A & C & D & F). exists v1, v2. rewrite !(E (Z.of_nat n)) by lia.
  repeat split; try assumption. apply (IH c); [intros; apply E; lia|exact C].
Qed.
Lemma chain_top : forall n c top v, chain n c top v -> 0 <= top.
Proof.
  induction n as [|n IH]; intros c top v H; cbn [chain] in *; [lia|].
  destruct H as (v1 & v2 & A & C & _). apply IH in C. lia.
Qed.
Lemma chain_nonneg : forall n c top v, Z.of_nat n <= snaps -> chain n c top v -> 0 <= v.
Proof.
  induction n as [|n IH]; intros c top v N H; cbn [chain] in *; [lia|].
  destruct H as (v1 & v2 & A & C & D & ->). apply IH in C; [|lia]. apply T_nonneg in D; lia.
Qed.
Lemma chain_first : forall n c top v, chain (S n) c top v -> c 0 < top.
Proof.
  induction n as [|n IH]; intros c top v (v1 & v2 & A & C & _); [exact A|].
  apply IH in C. cbn [Z.of_nat] in *. lia.
Qed.

Definition T0 (l c v : Z) : Prop := (l = 0 /\ v = 0) \/ (1 <= l /\ T l c v).

(** capo is not stored / capo is the last stored checkpoint *)
Definition off (s : args) (m : nums) (v : Z) : Prop :=
  -1 <= check s < snaps /\ capo s <= fine s /\
  exists v1 v2, chain (Z.to_nat (check s + 1)) (ch m) (capo s) v1 /\ T0 (fine s - capo s) (snaps - (check s + 1)) v2 /\ v = v1 + v2.
Definition at_ (s : args) (m : nums) (v : Z) : Prop :=
  0 <= check s < snaps /\ capo s < fine s /\ ch m (check s) = capo s /\ oldfine m = fine s /\
  exists v1 v2, chain (Z.to_nat (check s)) (ch m) (capo s) v1 /\ T (fine s - capo s) (snaps - check s) v2 /\ v = v1 + v2.
Definition turned (s : args) (m : nums) : Prop :=
  fine s <= steps /\
  ((check s = -1 /\ capo s < fine s /\ fine s = steps) \/
   ((check s <> -1 \/ capo s = fine s) /\ turn m = (if fine s =? steps then 0 else 1))).
Definition Inv (b : bool) (s : args) (m : nums) (v : Z) : Prop :=
  (if b then off s m v else at_ s m v) /\ turned s m.
Definition mu (b : bool) (s : args) (v : Z) : Z := 2 * (v + fine s) + (if b then 1 else 0).

Lemma Inv_range : forall b s m v, Inv b s m v -> 0 <= capo s <= fine s /\ fine s <= steps /\ 0 <= v /\ -1 <= check s < snaps.
Proof.
  intros b s m v [H [F _]]. destruct b.
  - destruct H as (A & C & v1 & v2 & D & E & ->). pose proof (chain_top _ _ _ _ D).
    apply chain_nonneg in D; [|lia]. destruct E as [[E1 E2]|[E1 E2]]; [lia|]. apply T_nonneg in E2; lia.
  - destruct H as (A & C & _ & _ & v1 & v2 & D & E & ->). pose proof (chain_top _ _ _ _ D).
    apply chain_nonneg in D; [|lia]. apply T_nonneg in E; lia.
Qed.

(** ** The caller *)
Definition tracks (s : args) (m : nums) (u : caller) : Prop :=
  left u = fine s /\ finished u = false /\ (capo s < fine s -> now u = Some (capo s)) /\
  forall i, 0 <= i <= check s -> slots u i = Some (ch m i).

(** what a call does, in detail *)
Definition trans (b : bool) (s : args) (m : nums) (a : action) (s' : args) (m' : nums) (b' : bool) : Prop :=
  (fine s = capo s + 1 /\ a = (if fine s =? steps then firsturn else youturn) /\ check s' = (if b then check s else check s - 1) /\
     capo s' = capo s /\ fine s' = capo s /\ (forall i, 0 <= i <= check s' -> ch m' i = ch m i) /\ b' = true)
  \/ (fine s = capo s /\ 0 <= check s /\ a = restore /\ check s' = check s /\ capo s' = ch m (check s) /\ ch m (check s) < capo s /\ fine s' = fine s /\
     (forall i, 0 <= i <= check s' -> ch m' i = ch m i) /\ b = true /\ b' = false)
  \/ (capo s + 1 < fine s /\ a = takeshot /\ check s' = check s + 1 /\ capo s' = capo s /\ fine s' = fine s /\ ch m' (check s') = capo s /\
     (forall i, 0 <= i <= check s -> ch m' i = ch m i) /\ b = true /\ b' = false)
  \/ (capo s + 1 < fine s /\ a = advance /\ check s' = check s /\ capo s < capo s' < fine s /\ fine s' = fine s /\
     (forall i, 0 <= i <= check s' -> ch m' i = ch m i) /\ b = false /\ b' = true).

Definition good_call (b : bool) (s : args) (m : nums) (v : Z) : Prop :=
  exists a s' m' b' v', revolve snaps s m = Some (a, s', m') /\ a <> terminate /\ a <> error /\ trans b s m a s' m' b' /\
    Inv b' s' m' v' /\ mu b' s' v' < mu b s v /\ info s' = info s /\
    forall u, tracks s m u -> exists u', act steps snaps (a, s') u = Some u' /\ tracks s' m' u' /\ moved u' + v' = moved u + v.

Lemma slot_ok : forall i, 0 <= i < snaps -> slot i = Some tt.
Proof. intros i H. unfold slot. rewrite (proj2 (Z.leb_le _ _)), (proj2 (Z.ltb_lt _ _)) by lia. reflexivity. Qed.
Lemma put_at : forall f i v, put f i v i = v.
Proof. intros. unfold put. now rewrite Z.eqb_refl. Qed.
Lemma put_o : forall f i v j, j <> i -> put f i v j = f j.
Proof. intros. unfold put. now rewrite (proj2 (Z.eqb_neq j i)). Qed.

Lemma numforw_T : forall l, 1 <= l <= steps -> l <= B snaps ADOLC_REPSUP ->
  exists v, numforw l snaps = Some v /\ T l snaps v.
Proof.
  intros l L W. unfold numforw.
  destruct (Z.ltb_spec snaps 1); [lia|]. rewrite Z.gtb_ltb. destruct (Z.ltb_spec ADOLC_CHECKUP snaps); [lia|].
  assert (l * (ADOLC_CHECKUP + ADOLC_REPSUP) <= MAXINT) as O by (unfold ADOLC_CHECKUP, ADOLC_REPSUP in *; nia).
  assert (forall x k, 0 <= x <= l -> 0 <= k <= 2000 -> 0 <= x * k <= MAXINT) as K.
  { intros x k X Hk. split; [nia|]. transitivity (l * (ADOLC_CHECKUP + ADOLC_REPSUP)); [|exact O].
    apply Z.mul_le_mono_nonneg; unfold ADOLC_CHECKUP, ADOLC_REPSUP in *; lia. }
  assert (ADOLC_CHECKUP = 1000 /\ ADOLC_REPSUP = 1000) as [K1 K2] by (split; reflexivity).
  destruct (expand_from_0 l snaps Hsnaps ltac:(lia) W O) as (r & -> & R & L2 & L1).
  rewrite Z.gtb_ltb. destruct (Z.ltb_spec ADOLC_REPSUP r); [lia|].
  rewrite int_ok by (rewrite Z.mul_comm; apply K; lia).
  assert (B snaps (r - 1) <= l) as L1' by (destruct L1 as [->|L1]; [rewrite B_neg_r by lia; lia|lia]).
  assert (B snaps r * r = (snaps + 1) * B (snaps + 1) (r - 1)) as E.
  { destruct (Z.eq_dec r 0) as [->|]; [rewrite (B_neg_r (snaps + 1)) by lia; ring|].
    rewrite (B_step_c (snaps + 1) (r - 1)) by lia. rewrite Z.mul_comm, (B_step_r snaps r) by lia.
    replace (snaps + 1 - 1) with snaps by lia. f_equal. lia. }
  rewrite int_ok.
  2: { pose proof (B_nonneg snaps r). split; [nia|]. destruct (Z.eq_dec r 0) as [->|]; [rewrite Z.mul_0_r; unfold MAXINT; lia|].
       rewrite Z.mul_comm, B_step_r by lia. rewrite Z.mul_comm. apply K; [split; [apply B_nonneg|lia]|lia]. }
  rewrite (quot_exact _ (snaps + 1) (B (snaps + 1) (r - 1))) by (try lia; exact E).
  assert (T l snaps (r * l - B (snaps + 1) (r - 1))) as Tv by (exists r; split; [lia|]; split; [lia|reflexivity]).
  exists (r * l - B (snaps + 1) (r - 1)). split; [|exact Tv].
  apply int_ok. pose proof (T_nonneg l snaps _ ltac:(lia) ltac:(lia) Tv). pose proof (B_nonneg (snaps + 1) (r - 1)).
  split; [assumption|]. specialize (K l r ltac:(lia) ltac:(lia)). lia.
Qed.

Lemma prologue_ch : forall s m i, 0 <= i <= check s -> ch (prologue s m) i = ch m i.
Proof.
  intros s m i H. unfold prologue. destruct (Z.eqb_spec (check s) (-1)); [lia|]. reflexivity.
Qed.
Lemma prologue_oldfine : forall s m, oldfine (prologue s m) = oldfine m.
Proof. intros. unfold prologue. destruct ((check s =? -1) && (capo s <? fine s)); reflexivity. Qed.
Lemma prologue_turn : forall s m, turned s m -> turn (prologue s m) = (if fine s =? steps then 0 else 1).
Proof.
  intros s m [_ [(E & L & F)|(E & F)]]; unfold prologue.
  - rewrite (proj2 (Z.eqb_eq _ _)), (proj2 (Z.ltb_lt _ _)) by assumption. cbn [andb turn]. rewrite F. now rewrite Z.eqb_refl.
  - destruct (Z.eqb_spec (check s) (-1)), (Z.ltb_spec (capo s) (fine s)); cbn [andb]; try exact F. lia.
Qed.

(** revolve after its prologue *)
Definition setfine (f : Z) (m : nums) : nums :=
  mk_nums (advances m) (takeshots m) (commands m) (turn m) (reps m) (range m) (ch m) (oldsnaps m) f.

Lemma call_turn : forall b s m v, Inv b s m v -> fine s = capo s + 1 -> good_call b s m v.
Proof.
  intros b s m v H L. pose proof (Inv_range _ _ _ _ H) as (R1 & R2 & R3 & R4). pose proof H as [H1 H2].
  pose proof (prologue_turn _ _ H2) as Tn.
  set (c := if b then check s else check s - 1).
  set (a := if fine s =? steps then firsturn else youturn).
  assert (exists m', revolve snaps s m = Some (a, mk_args c (capo s) (capo s) (info s), m') /\ ch m' = ch (prologue s m) /\ turn m' = 1) as (m' & E & Ec & Et).
  { unfold revolve.
    destruct (Z.ltb_spec (check s) (-1)); [lia|]. rewrite Z.gtb_ltb. destruct (Z.ltb_spec (fine s) (capo s)); [lia|]. cbn [orb]. unfold body. cbv zeta.
    rewrite ?Z.gtb_ltb. destruct (Z.eqb_spec (fine s - capo s) 0); [lia|]. destruct (Z.eqb_spec (fine s - capo s) 1); [|lia].
    assert ((if check s >=? 0 then match slot (check s) with Some _ => Some (if ch (prologue s m) (check s) =? capo s then check s - 1 else check s) | None => None end
             else Some (check s)) = Some c) as ->.
    { rewrite Z.geb_leb. destruct (Z.leb_spec 0 (check s)) as [P|P].
      - rewrite slot_ok by lia. rewrite prologue_ch by lia. f_equal. unfold c. destruct b; cbn in H1.
        + destruct H1 as (_ & _ & v1 & v2 & C & _). replace (Z.to_nat (check s + 1)) with (S (Z.to_nat (check s))) in C by lia.
          destruct C as (w1 & w2 & C & _). rewrite Z2Nat.id in C by lia. destruct (Z.eqb_spec (ch m (check s)) (capo s)); [lia|reflexivity].
        + destruct H1 as (_ & _ & C & _). rewrite C, Z.eqb_refl. reflexivity.
      - f_equal. unfold c. destruct b; [reflexivity|]. destruct H1 as (C & _). lia. }
    replace (fine s - 1) with (capo s) by lia. rewrite Tn. unfold a.
    destruct (Z.eqb_spec (fine s) steps) as [F|F]; cbn [Z.eqb]; unfold ret; eexists; (split; [reflexivity|]); (split; [reflexivity|]).
    - reflexivity.
    - reflexivity. }
  exists a, (mk_args c (capo s) (capo s) (info s)), m', true, v.
  split; [exact E|]. split; [unfold a; destruct (fine s =? steps); discriminate|]. split; [unfold a; destruct (fine s =? steps); discriminate|].
  split.
  { left. cbn [check capo fine]. split; [exact L|]. split; [reflexivity|]. split; [reflexivity|]. split; [reflexivity|]. split; [reflexivity|].
    split; [|reflexivity]. intros i I. rewrite Ec. apply prologue_ch. unfold c in I. destruct b; lia. }
  split; [|split; [|split]].
  - split.
    + unfold off. cbn [check capo fine].
      destruct b; cbn in H1.
      * destruct H1 as (A & C & v1 & v2 & D & F & G). split; [exact A|]. split; [lia|]. exists v1, 0.
        split; [apply (chain_ext _ (ch m)); [intros i I; rewrite Ec; apply prologue_ch; unfold c in *; lia|exact D]|]. split; [left; lia|].
        destruct F as [F|[_ F]]; [lia|]. replace (fine s - capo s) with 1 in F by lia. apply T_one in F; lia.
      * destruct H1 as (A & C & _ & _ & v1 & v2 & D & F & G). unfold c. split; [lia|]. split; [lia|]. exists v1, 0.
        replace (check s - 1 + 1) with (check s) by lia.
        split; [apply (chain_ext _ (ch m)); [intros i I; rewrite Ec; apply prologue_ch; lia|exact D]|]. split; [left; lia|].
        replace (fine s - capo s) with 1 in F by lia. apply T_one in F; lia.
    + split; [cbn [fine]; lia|]. right. cbn [check capo fine]. split; [now right|]. rewrite Et. destruct (Z.eqb_spec (capo s) steps); [lia|reflexivity].
  - unfold mu. cbn [fine]. destruct b; lia.
  - reflexivity.
  - intros u (U1 & U2 & U3 & U4). specialize (U3 ltac:(lia)).
    unfold act. rewrite U2. unfold a. destruct (Z.eqb_spec (fine s) steps) as [F|F]; rewrite U3; rewrite U1;
      rewrite (proj2 (Z.eqb_eq (capo s + 1) (fine s))) by lia; [rewrite (proj2 (Z.eqb_eq (fine s) steps)) by assumption|rewrite (proj2 (Z.eqb_neq (fine s) steps)) by assumption];
      cbn [andb Bool.eqb]; (eexists; split; [reflexivity|]; split; [|cbn [moved]; lia]);
      unfold tracks; cbn [left finished now slots capo fine check]; (split; [reflexivity|]); (split; [reflexivity|]); (split; [lia|]);
      intros i I; rewrite Ec, prologue_ch by (unfold c in I; destruct b; lia); apply U4; unfold c in I; destruct b; lia.
Qed.

Lemma call_restore : forall s m v, Inv true s m v -> fine s = capo s -> 0 <= check s -> good_call true s m v.
Proof.
  intros s m v H L P. pose proof (Inv_range _ _ _ _ H) as (R1 & R2 & R3 & R4). pose proof H as [H1 H2].
  destruct H1 as (A & C & v1 & v2 & D & F & G).
  replace (Z.to_nat (check s + 1)) with (S (Z.to_nat (check s))) in D by lia.
  pose proof (chain_first _ _ _ _ D) as Fi. pose proof D as (w1 & w2 & D1 & D2 & D3 & D4). rewrite Z2Nat.id in D1, D2, D3 by lia.
  exists restore, (mk_args (check s) (ch m (check s)) (fine s) (info s)), (setfine (fine s) (prologue s m)), false, v.
  split; [|split; [discriminate|split; [discriminate|split; [|split; [|split; [|split]]]]]].
  - unfold revolve.
    destruct (Z.ltb_spec (check s) (-1)); [lia|]. rewrite Z.gtb_ltb. destruct (Z.ltb_spec (fine s) (capo s)); [lia|]. cbn [orb]. unfold body. cbv zeta.
    rewrite ?Z.gtb_ltb. destruct (Z.eqb_spec (fine s - capo s) 0); [|lia].
    destruct (Z.eqb_spec (check s) (-1)); [lia|]. cbn [orb].
    rewrite (prologue_ch s m 0) by lia. destruct (Z.eqb_spec (capo s) (ch m 0)); [lia|].
    rewrite slot_ok by lia. rewrite prologue_ch by lia. reflexivity.
  - right. left. cbn [check capo fine]. repeat (split; [first [exact L | exact P | reflexivity | exact D1 | intros i I; cbn [setfine ch]; apply prologue_ch; lia]|]). reflexivity.
  - split.
    + unfold at_. cbn [check capo fine]. split; [lia|]. split; [lia|]. split; [cbn [setfine ch]; apply prologue_ch; lia|]. split; [reflexivity|].
      exists w1, w2. split; [apply (chain_ext _ (ch m)); [intros i I; cbn [setfine ch]; apply prologue_ch; lia|exact D2]|].
      split; [rewrite L; exact D3|]. destruct F as [F|F]; lia.
    + split; [cbn [fine]; lia|]. right. split; [left; cbn [check]; lia|]. cbn [setfine turn fine]. now apply prologue_turn.
  - unfold mu. cbn [fine]. lia.
  - reflexivity.
  - intros u (U1 & U2 & U3 & U4). unfold act. rewrite U2. cbn [check capo]. rewrite U4 by lia.
    rewrite Z.eqb_refl, (proj2 (Z.leb_le _ _)), (proj2 (Z.ltb_lt _ _)) by lia. cbn [andb].
    eexists. split; [reflexivity|]. split; [|cbn [moved]; lia].
    unfold tracks. cbn [left finished now slots capo fine check]. split; [exact U1|]. split; [reflexivity|]. split; [reflexivity|].
    intros i I. cbn [setfine ch]. rewrite prologue_ch by lia. now apply U4.
Qed.

Lemma call_shot : forall s m v, Inv true s m v -> capo s + 1 < fine s -> good_call true s m v.
Proof.
  intros s m v H L. pose proof (Inv_range _ _ _ _ H) as (R1 & R2 & R3 & R4). pose proof H as [H1 H2].
  destruct H1 as (A & C & v1 & v2 & D & F & G).
  destruct F as [F|[_ F]]; [lia|].
  assert (1 <= snaps - (check s + 1)) as S1 by (apply (T_slots (fine s - capo s) _ v2); [lia|lia|exact F]).
  assert (exists m', revolve snaps s m = Some (takeshot, mk_args (check s + 1) (capo s) (fine s) (info s), m') /\
     ch m' = put (ch (prologue s m)) (check s + 1) (capo s) /\ turn m' = turn (prologue s m) /\ oldfine m' = fine s) as (m' & E & Ec & Et & Eo).
  { unfold revolve.
    destruct (Z.ltb_spec (check s) (-1)); [lia|]. rewrite !Z.gtb_ltb. destruct (Z.ltb_spec (fine s) (capo s)); [lia|]. cbn [orb]. unfold body. cbv zeta.
    rewrite ?Z.gtb_ltb. destruct (Z.eqb_spec (fine s - capo s) 0); [lia|]. destruct (Z.eqb_spec (fine s - capo s) 1); [lia|].
    assert ((if check s =? -1 then Some true else match slot (check s) with Some _ => Some (negb (ch (prologue s m) (check s) =? capo s)) | None => None end) = Some true) as ->.
    { destruct (Z.eqb_spec (check s) (-1)); [reflexivity|]. rewrite slot_ok, prologue_ch by lia. do 2 f_equal.
      replace (Z.to_nat (check s + 1)) with (S (Z.to_nat (check s))) in D by lia. destruct D as (w1 & w2 & D & _). rewrite Z2Nat.id in D by lia.
      destruct (Z.eqb_spec (ch m (check s)) (capo s)); [lia|reflexivity]. }
    rewrite Z.geb_leb. destruct (Z.leb_spec ADOLC_CHECKUP (check s + 1)); [lia|].
    destruct (Z.ltb_spec snaps (check s + 1 + 1)); [lia|].
    destruct (Z.eqb_spec (check s + 1) 0) as [Z0|Z0].
    - destruct (Z.ltb_spec ADOLC_CHECKUP snaps); [lia|].
      destruct (Z.ltb_spec 0 (info s)).
      + destruct (numforw_T (fine s - capo s)) as (w & -> & W); [lia|apply T_bound in F; rewrite Z0 in F; replace (snaps - 0) with snaps in F by lia; exact F|].
        pose proof (T_nonneg (fine s - capo s) snaps w ltac:(lia) ltac:(lia) W). destruct (Z.eqb_spec w (-1)); [lia|].
        eexists. split; [reflexivity|]. cbn. repeat split.
      + eexists. split; [reflexivity|]. cbn. repeat split.
    - eexists. split; [reflexivity|]. cbn. repeat split. }
  exists takeshot, (mk_args (check s + 1) (capo s) (fine s) (info s)), m', false, v.
  split; [exact E|]. split; [discriminate|]. split; [discriminate|]. split.
  { right. right. left. cbn [check capo fine]. split; [exact L|]. split; [reflexivity|]. split; [reflexivity|]. split; [reflexivity|]. split; [reflexivity|].
    split; [rewrite Ec; apply put_at|]. split; [|split; reflexivity]. intros i I. rewrite Ec, put_o by lia. now apply prologue_ch. }
  split; [|split; [|split]].
  - split.
    + unfold at_. cbn [check capo fine]. split; [lia|]. split; [lia|]. split; [rewrite Ec; apply put_at|]. split; [exact Eo|].
      exists v1, v2. split; [apply (chain_ext _ (ch m)); [intros i I; rewrite Ec, put_o by lia; apply prologue_ch; lia|exact D]|].
      split; [exact F|exact G].
    + split; [cbn [fine]; lia|]. right. split; [left; cbn [check]; lia|]. cbn [fine]. rewrite Et. now apply prologue_turn.
  - unfold mu. cbn [fine]. lia.
  - reflexivity.
  - intros u (U1 & U2 & U3 & U4). specialize (U3 ltac:(lia)). unfold act. rewrite U2, U3. cbn [check capo].
    rewrite Z.eqb_refl, (proj2 (Z.leb_le _ _)), (proj2 (Z.ltb_lt _ _)) by lia. cbn [andb].
    eexists. split; [reflexivity|]. split; [|cbn [moved]; lia].
    unfold tracks. cbn [left finished now slots capo fine check]. split; [exact U1|]. split; [reflexivity|]. split; [reflexivity|].
    intros i I. rewrite Ec. destruct (Z.eqb_spec i (check s + 1)) as [->|N]; [now rewrite put_at|]. rewrite put_o, prologue_ch by lia. apply U4. lia.
Qed.

Lemma call_advance : forall s m v, Inv false s m v -> capo s + 1 < fine s -> good_call false s m v.
Proof.
  intros s m v H L. pose proof (Inv_range _ _ _ _ H) as (R1 & R2 & R3 & R4). pose proof H as [H1 H2].
  destruct H1 as (A & C & D1 & D2 & v1 & v2 & D & F & G).
  assert ((fine s - capo s) * (ADOLC_CHECKUP + ADOLC_REPSUP) <= MAXINT) as O.
  { etransitivity; [|exact Hint]. apply Z.mul_le_mono_nonneg_r; [unfold ADOLC_CHECKUP, ADOLC_REPSUP; lia|lia]. }
  destruct (expand_from_0 (fine s - capo s) (snaps - check s) ltac:(lia) ltac:(lia) (T_bound _ _ _ F) O) as (r & Ee & R & L2 & L1).
  assert (1 <= r) as R1'.
  { destruct (Z.eq_dec r 0) as [->|]; [|lia]. rewrite B_0_r in L2 by lia. lia. }
  assert (B (snaps - check s) (r - 1) < fine s - capo s) as L1' by (destruct L1; [lia|assumption]).
  assert (exists c1, bino r (B (snaps - check s) r) (snaps - check s) (capo s) (fine s) = Some c1) as (c1 & Eb).
  { rewrite bino_values; [eauto|lia|lia|]. etransitivity; [|exact O].
    apply Z.mul_le_mono_nonneg_r; [unfold ADOLC_CHECKUP, ADOLC_REPSUP; lia|lia]. }
  destruct (split_ok (fine s - capo s) (snaps - check s) v2 r (capo s) (fine s) c1 ltac:(lia) ltac:(lia) eq_refl R L2 L1 F O Eb) as (w1 & w2 & S1 & S2 & S3 & S4).
  set (c2 := if c1 =? capo s then capo s + 1 else c1) in *.
  assert (exists m', revolve snaps s m = Some (advance, mk_args (check s) c2 (fine s) (info s), m') /\
     ch m' = ch (prologue s m) /\ turn m' = turn (prologue s m)) as (m' & E & Ec & Et).
  { unfold revolve.
    destruct (Z.ltb_spec (check s) (-1)); [lia|]. rewrite !Z.gtb_ltb. destruct (Z.ltb_spec (fine s) (capo s)); [lia|]. cbn [orb]. unfold body. cbv zeta.
    rewrite ?Z.gtb_ltb. destruct (Z.eqb_spec (fine s - capo s) 0); [lia|]. destruct (Z.eqb_spec (fine s - capo s) 1); [lia|].
    destruct (Z.eqb_spec (check s) (-1)); [lia|]. rewrite slot_ok, prologue_ch by lia. rewrite D1, Z.eqb_refl. cbn [negb].
    rewrite prologue_oldfine, D2, Z.ltb_irrefl. cbn [andb].
    destruct (Z.ltb_spec (snaps - check s) 1); [lia|]. rewrite Ee, ?Z.gtb_ltb.
    destruct (Z.ltb_spec ADOLC_REPSUP r); [lia|]. destruct (Z.ltb_spec ADOLC_CHECKUP snaps); [lia|].
    rewrite andb_false_r. rewrite Eb. fold c2. unfold ret. eexists. split; [reflexivity|]. split; reflexivity. }
  exists advance, (mk_args (check s) c2 (fine s) (info s)), m', true, (v1 + w1 + w2).
  split; [exact E|]. split; [discriminate|]. split; [discriminate|]. split.
  { right. right. right. cbn [check capo fine]. split; [exact L|]. split; [reflexivity|]. split; [reflexivity|]. split; [exact S1|]. split; [reflexivity|].
    split; [|split; reflexivity]. intros i I. rewrite Ec. now apply prologue_ch. }
  split; [|split; [|split]].
  - split.
    + unfold off. cbn [check capo fine]. split; [lia|]. split; [lia|]. exists (v1 + w1), w2.
      replace (Z.to_nat (check s + 1)) with (S (Z.to_nat (check s))) by lia.
      split; [|split; [right; split; [lia|]; replace (snaps - (check s + 1)) with (snaps - check s - 1) by lia; exact S3|lia]].
      exists v1, w1. rewrite Z2Nat.id by lia. rewrite Ec, prologue_ch by lia. rewrite D1. split; [lia|].
      split; [apply (chain_ext _ (ch m)); [intros i I; apply prologue_ch; lia|exact D]|]. split; [exact S2|reflexivity].
    + split; [cbn [fine]; lia|]. right. split; [left; cbn [check]; lia|]. cbn [fine]. rewrite Et. now apply prologue_turn.
  - unfold mu. cbn [fine]. lia.
  - reflexivity.
  - intros u (U1 & U2 & U3 & U4). specialize (U3 ltac:(lia)). unfold act. rewrite U2, U3. cbn [check capo]. rewrite U1.
    rewrite !(proj2 (Z.ltb_lt _ _)) by lia. cbn [andb].
    eexists. split; [reflexivity|]. split; [|cbn [moved]; lia].
    unfold tracks. cbn [left finished now slots capo fine check]. split; [reflexivity|]. split; [reflexivity|]. split; [reflexivity|].
    intros i I. rewrite Ec, prologue_ch by lia. now apply U4.
Qed.

Lemma call_done : forall s m, check s = -1 -> capo s = fine s ->
  exists m', revolve snaps s m = Some (terminate, mk_args (-2) (capo s) (fine s) (info s), m').
Proof.
  intros s m E F. unfold revolve.
  destruct (Z.ltb_spec (check s) (-1)); [lia|]. rewrite !Z.gtb_ltb. destruct (Z.ltb_spec (fine s) (capo s)); [lia|]. cbn [orb]. unfold body. cbv zeta.
  rewrite ?Z.gtb_ltb. destruct (Z.eqb_spec (fine s - capo s) 0); [|lia]. rewrite E. cbn [Z.eqb orb]. eexists. reflexivity.
Qed.

(** every call makes progress *)
Lemma progress : forall b s m v, Inv b s m v ->
  (check s = -1 /\ capo s = fine s /\ fine s = 0 /\ v = 0) \/ good_call b s m v.
Proof.
  intros b s m v H. pose proof (Inv_range _ _ _ _ H) as (R1 & R2 & R3 & R4).
  destruct (Z.eq_dec (fine s) (capo s)) as [E|N].
  - destruct b.
    + destruct (Z_lt_dec (check s) 0) as [M|M].
      * left. assert (check s = -1) as Ec by lia. destruct H as [(_ & _ & v1 & v2 & D & F & ->) _]. rewrite Ec in D. cbn in D.
        destruct F as [F|[F _]]; lia.
      * right. apply call_restore; [exact H|exact E|lia].
    + destruct H as [(_ & C & _) _]. lia.
  - right. destruct (Z.eq_dec (fine s) (capo s + 1)) as [E|N'].
    + now apply call_turn.
    + destruct b; [apply call_shot|apply call_advance]; try assumption; lia.
Qed.
End Inv.
