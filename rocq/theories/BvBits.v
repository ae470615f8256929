(* Rows of words as sets of columns; extraction. *)
Require Import List ZArith NArith Bool Arith Lia.
Require Import Verif.AdModel Verif.AdSpec Verif.SpSpec Verif.BvModel Verif.BvSpec.
Import ListNotations.
Set Implicit Arguments.

(* ------------------------------------------------------------------ *)
(* A sweep commutes with taking one bit.                                *)
Section Hom.
Variables (W : Type) (wz : W) (wor : W -> W -> W) (h : W -> bool).
Variables (wmin : W -> W -> W -> W) (wcs : W -> W -> W) (wtie : W -> W -> W)
  (wshort : W -> W -> W).
Hypothesis hz : h wz = false.
Hypothesis ho : forall a b, h (wor a b) = h a || h b.
Variable K : Arith.

Definition hp (P : pats W) (B : pats bool) : Prop := forall l, h (P l) = B l.

Lemma hp_set P B l r v : hp P B -> h r = v -> hp (pset P l r) (pset B l v).
Proof. intros H E j. unfold pset. destruct (Nat.eqb j l); auto. Qed.

Definition bmin (_ a b : bool) := a || b.
Notation bsafe := (@fsafe bool false orb K bmin orb).
Notation btight := (@ftight bool false orb K bmin orb orb).

Lemma hp_pcopy n arg res : forall q P B, hp P B -> hp (pcopy n arg res q P) (pcopy n arg res q B).
Proof. induction n; intros; cbn [pcopy]; auto. apply IHn. apply hp_set; auto. Qed.
Lemma hp_pdot n a1 a2 res : forall q P B, hp P B -> hp (pdot wor n a1 a2 res q P) (pdot orb n a1 a2 res q B).
Proof. induction n; intros; cbn [pdot]; auto. apply IHn. apply hp_set; auto. now rewrite !ho, !H. Qed.
Lemma hp_paxpy n arg a1 a2 res : forall q P B, hp P B ->
  hp (paxpy wor n arg a1 a2 res q P) (paxpy orb n arg a1 a2 res q B).
Proof. induction n; intros; cbn [paxpy]; auto. apply IHn. apply hp_set; auto. now rewrite !ho, !H. Qed.
Lemma hp_pzero n : forall res P B, hp P B -> hp (pzero wz n res P) (pzero false n res B).
Proof. induction n; intros; cbn [pzero]; auto. apply IHn. apply hp_set; auto. Qed.
Lemma hp_qcopy n arg res : forall q P B, hp P B -> hp (qcopy wz wor n arg res q P) (qcopy false orb n arg res q B).
Proof. induction n; intros; cbn [qcopy]; auto. apply IHn. repeat apply hp_set; auto. now rewrite !ho, !H. Qed.
Lemma hp_qdot n a1 a2 res : forall q P B, hp P B -> hp (qdot wor n a1 a2 res q P) (qdot orb n a1 a2 res q B).
Proof.
  induction n; intros q P B H; cbn [qdot]; auto. apply IHn.
  assert (Hs : hp (pset P (a2 + q) (wor (P (a2 + q)) (P res))) (pset B (a2 + q) (B (a2 + q) || B res)))
    by (apply hp_set; auto; now rewrite !ho, !H).
  apply hp_set; auto. now rewrite !ho, !Hs.
Qed.
Lemma hp_add P B res arg : hp P B -> hp (qadd wor P res arg) (qadd orb B res arg).
Proof. intros H. apply hp_set; auto. now rewrite ho, !H. Qed.
Lemma hp_qaxpy n arg a1 a2 res : forall q P B, hp P B ->
  hp (qaxpy wor n arg a1 a2 res q P) (qaxpy orb n arg a1 a2 res q B).
Proof.
  induction n; intros q P B H; cbn [qaxpy]; auto. apply IHn.
  do 3 match goal with |- hp (pset ?P ?l (wor (?P ?l) (?P ?r))) _ =>
    apply (@hp_add P _ r l) end. exact H.
Qed.
Lemma hp_one P B res arg : hp P B -> hp (qone wz wor P res arg) (qone false orb B res arg).
Proof.
  intros H. unfold qone.
  assert (hp (pset P res wz) (pset B res false)) as H1 by (apply hp_set; auto).
  apply hp_set; auto. now rewrite ho, H1, H.
Qed.
Lemma hp_two P B res a1 a2 : hp P B -> hp (qtwo wz wor P res a1 a2) (qtwo false orb B res a1 a2).
Proof.
  intros H. unfold qtwo. apply hp_set; [now apply hp_one|].
  rewrite ho, H. f_equal. apply hp_one. exact H.
Qed.

Definition good_safe (b : bop K) : Prop :=
  match b with
  | MinOp _ _ _ _ _ => forall r a c, h (wmin r a c) = h a || h c
  | CondAssignS _ _ _ _ _ | CondEqAssignS _ _ _ _ _ => forall r a, h (wcs r a) = h r || h a
  | _ => True
  end.

Lemma hp_fsafe sd sb b P B : hp P B -> h sd = sb -> good_safe b ->
  hp (fsafe wz wor wmin wcs sd b P) (bsafe sb b B).
Proof.
  intros H Hs G.
  destruct b; cbn [fsafe good_safe] in *; auto using hp_pcopy, hp_paxpy, hp_pzero;
    try (apply hp_set; auto; rewrite ?ho, ?H; auto; fail).
  - apply hp_set; [apply hp_set; auto|]. apply (hp_set a2 H (H a1)).
  - apply hp_set; [apply hp_set; auto|]. apply (hp_set a2 H (H a1)).
  - apply hp_set; auto. rewrite G, !H. reflexivity.
  - apply hp_set; auto. rewrite G, !H. reflexivity.
  - apply hp_set; auto. rewrite G, !H. reflexivity.
  - apply hp_pdot. apply hp_set; auto.
Qed.

Definition good_tight (b : bop K) (T : mem K) : Prop :=
  match b with
  | MinOp _ a1 a2 _ _ => (ltb K (T a2) (T a1) || ltb K (T a1) (T a2) = true) \/
      (forall a c, h (wtie a c) = h a || h c) \/ (a1 = a2 /\ forall a, h (wtie a a) = h a)
  | _ => True
  end.
Lemma hp_ftight sd sb b T P B : hp P B -> h sd = sb -> good_tight b T ->
  hp (ftight wz wor wmin wcs wtie sd b T P) (btight sb b T B).
Proof.
  intros H Hs G. destruct b; try (apply hp_fsafe; auto; exact I); cbn [ftight good_tight] in *.
  - apply hp_set; auto.
    destruct (ltb K (T a2) (T a1)), (ltb K (T a1) (T a2)); auto.
    destruct G as [G|[G|[-> G]]]; [discriminate G| |].
    + now rewrite G, !H.
    + rewrite G, !H. now destruct (B a2).
  - apply hp_set; auto.
  - apply hp_set; auto.
  - destruct (ltb K (zero K) (T arg)); auto. apply hp_set; auto.
  - destruct (leb K (zero K) (T arg)); auto. apply hp_set; auto.
Qed.

Definition good_rev (b : bop K) : Prop :=
  match b with
  | CondAssignS _ _ _ _ _ | CondEqAssignS _ _ _ _ _ =>
      forall a r, h (wshort a r) = h a || h r
  | _ => True
  end.
Notation csafe := (@qsafe bool false orb K orb).
Notation ctight := (@qtight bool false orb K orb).

Lemma hp_qsafe sd sb b P B : hp P B -> h sd = sb -> good_rev b ->
  hp (qsafe wz wor wshort sd b P) (csafe sb b B).
Proof.
  intros H Hs G.
  destruct b; cbn [qsafe good_rev] in *;
    auto using hp_qcopy, hp_qdot, hp_qaxpy, hp_pzero, hp_one, hp_two, hp_add, hp_set.
  - destruct (Nat.eqb res a1), (Nat.eqb res a2); cbn [orb]; auto using hp_add, hp_set.
  - destruct (Nat.eqb res a1), (Nat.eqb res a2); cbn [orb]; auto using hp_add, hp_set.
  - destruct (Nat.eqb res a1); auto. repeat apply hp_set; auto. now rewrite G, !H.
  - destruct (Nat.eqb res a1); auto. repeat apply hp_set; auto. now rewrite G, !H.
Qed.
Lemma hp_qtight sd sb b T P B : hp P B -> h sd = sb ->
  hp (qtight wz wor wshort sd b T P) (ctight sb b T B).
Proof.
  intros H Hs. destruct b; try (apply hp_qsafe; auto; exact I); cbn [qtight].
  - destruct (ltb K (T a2) (T a1)), (ltb K (T a1) (T a2)); auto using hp_one, hp_two.
  - destruct (ltb K (T arg) (zero K) || ltb K (zero K) (T arg)); auto using hp_one, hp_set.
  - destruct (ltb K (zero K) (T arg)); destruct (Nat.eqb res _); auto using hp_set, hp_add.
  - destruct (leb K (zero K) (T arg)); destruct (Nat.eqb res _); auto using hp_set, hp_add.
  - destruct (ltb K (zero K) (T arg)); auto; destruct (Nat.eqb res _); auto using hp_set, hp_add.
  - destruct (leb K (zero K) (T arg)); auto; destruct (Nat.eqb res _); auto using hp_set, hp_add.
Qed.

(* whole sweeps *)
Definition good_op (o : op K) : Prop :=
  match o with Plain b => good_safe b | _ => True end.
Lemma fsrun_hom seed sb t : (forall i, h (seed i) = sb i) -> Forall good_op t ->
  forall i P B rows rows', hp P B ->
  fsrun wz wor wmin wcs seed t i P rows = SwRows rows' ->
  fsrun false orb bmin orb sb t i B (map h rows) = SwRows (map h rows').
Proof.
  intros Hs. induction t as [|o t IH]; intros G i P B rows rows' H E.
  - cbn in *. now injection E as ->.
  - inversion G as [|? ? G1 G2]; subst. destruct o; try discriminate E. cbn [fsrun] in *.
    replace (map h rows ++ prow b B) with (map h (rows ++ prow b P)).
    + eapply IH; eauto. apply hp_fsafe; auto.
    + rewrite map_app. f_equal. destruct b; cbn; auto. now rewrite H.
Qed.
Lemma fsrun_ok seed sb (t : list (op K)) : forall i P B rows r',
  match fsrun false orb bmin orb sb t i B r' with
  | SwRows _ => exists rows', fsrun wz wor wmin wcs seed t i P rows = SwRows rows' /\
      length rows' = length rows + deps t
  | _ => fsrun wz wor wmin wcs seed t i P rows = SwFail
  end.
Proof.
  induction t as [|o t IH]; intros i P B rows r'; cbn [fsrun].
  - exists rows. unfold deps. cbn. auto.
  - destruct o; try reflexivity.
    specialize (IH (if is_ind b then S i else i) (fsafe wz wor wmin wcs (seed i) b P)
                   (bsafe (sb i) b B) (rows ++ prow b P) (r' ++ prow b B)).
    destruct (fsrun false orb bmin orb sb t _ _ _); auto.
    destruct IH as (rows' & E & L). exists rows'. split; auto.
    rewrite L, app_length. unfold deps. cbn [filter].
    destruct b; cbn [is_dep prow length app]; lia.
Qed.

Lemma ftrun_hom (ps x : nat -> V K) seed sb (t : list (op K)) :
  (forall i, h (seed i) = sb i) ->
  forall (s : fstate K) P B rows rows' , hp P B ->
  (forall a, h (wtie a a) = h a) ->
  no_tie ps x t s = true ->
  ftrun wz wor wmin wcs wtie ps x seed t (fi s) (fT s) P rows = SwRows rows' ->
  ftrun false orb bmin orb orb ps x sb t (fi s) (fT s) B (map h rows) = SwRows (map h rows').
Proof.
  intros Hs. induction t as [|o t IH]; intros s P B rows rows' H WT NT E.
  - cbn in *. now injection E as ->.
  - cbn [no_tie ftrun] in *. apply andb_true_iff in NT. destruct NT as [N1 N2].
    destruct (oob (fT s) o) eqn:Eo; [discriminate E|].
    destruct (is_cond (resolve (fT s) o)) eqn:Ec; [discriminate E|].
    destruct (zabort (resolve (fT s) o) (fT s)) eqn:Ea; [discriminate E|].
    unfold zstep in N2. rewrite Eo, Ea in N2.
    match type of N2 with no_tie _ _ _ ?s' = true =>
      specialize (IH s' (ftight wz wor wmin wcs wtie (seed (fi s)) (resolve (fT s) o) (fT s) P)
        (btight (sb (fi s)) (resolve (fT s) o) (fT s) B) (rows ++ prow (resolve (fT s) o) P) rows') end.
    cbn [fi fT] in IH.
    replace (map h rows ++ prow (resolve (fT s) o) B)
      with (map h (rows ++ prow (resolve (fT s) o) P)).
    + apply IH; auto. apply hp_ftight; auto.
      destruct (resolve (fT s) o); cbn; auto. cbn in Ec.
      apply orb_true_iff in N1. destruct N1 as [N1|N1].
      * apply orb_true_iff in N1. destruct N1 as [N1|N1].
        -- apply Nat.eqb_eq in N1. subst. right. right. auto.
        -- left. rewrite N1. auto.
      * left. rewrite N1. apply orb_true_r.
    + rewrite map_app. f_equal. destruct (resolve (fT s) o); cbn; auto. now rewrite H.
Qed.

(* reverse *)
Definition hq (s : qstate W) (s' : qstate bool) : Prop :=
  hp (qA s) (qA s') /\ (forall i, h (qz s i) = qz s' i) /\ qi s = qi s' /\ qd s = qd s'.
Lemma hq_next b A' B' s s' : hp A' B' -> hq s s' -> hq (qnext (K:=K) b A' s) (qnext b B' s').
Proof.
  intros HA (H1 & H2 & H3 & H4).
  destruct b; cbn [qnext]; repeat split; cbn [qA qz qi qd]; auto; try lia.
  intros i. rewrite H3. destruct (Nat.eqb i (qi s' - 1)); auto.
Qed.
Definition good_rop (o : op K) : Prop :=
  match o with Plain b => good_rev b | _ => True end.
Lemma qsrun_hom seed sb t : (forall i, h (seed i) = sb i) -> Forall good_rop t ->
  forall s s' e, hq s s' -> qsrun wz wor wshort seed t s = Some e ->
  exists e', qsrun false orb orb sb t s' = Some e' /\ hq e e'.
Proof.
  intros Hs. induction t as [|o t IH]; intros G s s' e H E.
  - cbn in *. injection E as <-. eauto.
  - inversion G as [|? ? G1 G2]; subst. cbn [qsrun] in *.
    destruct (qsrun wz wor wshort seed t s) as [s1|] eqn:E1; [|discriminate E].
    destruct (IH G2 _ _ _ H E1) as (e1 & -> & H1).
    destruct o; try discriminate E. cbn [qsstep] in *. injection E as <-.
    eexists. split; [reflexivity|]. apply hq_next; auto.
    apply hp_qsafe; auto; [apply H1|]. destruct H1 as (_ & _ & _ & ->). auto.
Qed.
Lemma qtrun_hom seed sb (t : list (op K)) : (forall i, h (seed i) = sb i) ->
  forall s s' T k, hq s s' ->
  let '(e, T1, k1) := qtrun wz wor wshort seed t (s, T, k) in
  let '(e', T2, k2) := qtrun false orb orb sb t (s', T, k) in
  hq e e' /\ T1 = T2 /\ k1 = k2.
Proof.
  intros Hs. induction t as [|o t IH]; intros s s' T k H.
  - cbn. auto.
  - cbn [qtrun]. specialize (IH s s' T k H).
    destruct (qtrun wz wor wshort seed t (s, T, k)) as [[e T1] k1].
    destruct (qtrun false orb orb sb t (s', T, k)) as [[e' T2] k2].
    destruct IH as (HE & <- & <-). unfold qtstep.
    destruct (qtaylor (resolve T1 o) T1 k1) as [T' k']. split; [|auto].
    apply hq_next; auto. apply hp_qtight; [apply HE|].
    destruct HE as (_ & _ & _ & ->). auto.
Qed.
End Hom.

(* ------------------------------------------------------------------ *)
(* Bits.                                                                *)
Section Bits.
Variable wb : nat.
Hypothesis wb1 : 1 <= wb.

Definition colbit (j : nat) (r : row) : bool :=
  N.testbit (r (j / wb)) (N.of_nat (wb - 1 - j mod wb)).

Lemma land_pow2 v k : N.eqb (N.land (2 ^ k) v) 0 = negb (N.testbit v k).
Proof.
  destruct (N.testbit v k) eqn:E; cbn [negb].
  - apply N.eqb_neq. intros H. apply (f_equal (fun a => N.testbit a k)) in H.
    rewrite N.land_spec, N.pow2_bits_true, E, N.bits_0 in H. discriminate.
  - apply N.eqb_eq. apply N.bits_inj. intros i. rewrite N.land_spec, N.bits_0.
    rewrite N.pow2_bits_eqb. destruct (N.eqb_spec k i) as [->|]; auto.
Qed.
Lemma msb_pow : msb wb = (2 ^ N.of_nat (wb - 1))%N.
Proof. unfold msb. rewrite N.shiftl_1_l. reflexivity. Qed.
Lemma shift_pow a b : b <= a -> N.shiftr (2 ^ N.of_nat a) (N.of_nat b) = (2 ^ N.of_nat (a - b))%N.
Proof.
  intros H. rewrite N.shiftr_div_pow2, <- N.pow_sub_r by lia.
  f_equal. lia.
Qed.
Lemma shift1_pow a : 1 <= a -> N.shiftr (2 ^ N.of_nat a) 1 = (2 ^ N.of_nat (a - 1))%N.
Proof. intros H. rewrite <- (@shift_pow a 1) by auto. reflexivity. Qed.

(* where the loop over the bits stands before bit i *)
Definition at_bit (i idx : nat) (cb : N) : Prop :=
  (cb = (2 ^ N.of_nat (wb - 1 - i mod wb))%N /\ idx = i / wb) \/
  (cb = 0%N /\ i mod wb = 0 /\ S idx = i / wb).
Lemma at_start : at_bit 0 0 (msb wb).
Proof.
  left. rewrite msb_pow, Nat.mod_0_l, Nat.div_0_l by lia. rewrite Nat.sub_0_r. auto.
Qed.
Lemma at_fix i idx cb : at_bit i idx cb ->
  (if N.eqb cb 0 then (msb wb, S idx) else (cb, idx)) =
  ((2 ^ N.of_nat (wb - 1 - i mod wb))%N, i / wb).
Proof.
  intros [[-> ->]|(-> & M & I)].
  - destruct (N.eqb_spec (2 ^ N.of_nat (wb - 1 - i mod wb)) 0) as [E|]; auto.
    exfalso. revert E. apply N.pow_nonzero. lia.
  - cbn [N.eqb]. rewrite msb_pow, M, Nat.sub_0_r, I. reflexivity.
Qed.
Lemma at_next i : at_bit (S i) (i / wb) (N.shiftr (2 ^ N.of_nat (wb - 1 - i mod wb)) 1).
Proof.
  pose proof (Nat.mod_upper_bound i wb ltac:(lia)) as U.
  pose proof (Nat.div_mod i wb ltac:(lia)) as D.
  destruct (Nat.eq_dec (i mod wb) (wb - 1)) as [E|E].
  - right. rewrite E, Nat.sub_diag. split; [reflexivity|].
    assert (S i = (i / wb + 1) * wb) as Q by nia.
    rewrite Q. rewrite Nat.mod_mul, Nat.div_mul by lia. lia.
  - left.
    assert (S i mod wb = S (i mod wb)) as Q.
    { symmetry. apply Nat.mod_unique with (q := i / wb); lia. }
    assert (S i / wb = i / wb) as Q2.
    { symmetry. apply Nat.div_unique with (r := S (i mod wb)); lia. }
    rewrite Q, Q2. split; auto. rewrite shift1_pow by lia. do 2 f_equal. lia.
Qed.

Lemma scan_filter r : forall todo i idx cb, at_bit i idx cb ->
  scan wb todo i idx cb r = filter (fun j => colbit j r) (seq i todo).
Proof.
  induction todo as [|todo IH]; intros i idx cb A; cbn [scan seq filter]; auto.
  rewrite (at_fix A). rewrite land_pow2.
  rewrite (IH _ _ _ (at_next i)). unfold colbit.
  destruct (N.testbit (r (i / wb)) (N.of_nat (wb - 1 - i mod wb))); reflexivity.
Qed.

Lemma words_bits n : n <= words wb n * wb.
Proof.
  unfold words. pose proof (Nat.div_mod n wb ltac:(lia)) as D.
  pose proof (Nat.mod_upper_bound n wb ltac:(lia)) as U.
  destruct (Nat.eqb_spec (n mod wb) 0); nia.
Qed.
Lemma strips_cover n : n <= batches wb n * bits_per_strip wb n.
Proof.
  pose proof (words_bits n) as H. unfold batches, bits_per_strip, words_per_batch.
  destruct (Nat.leb_spec (words wb n) stripmine_max); [lia|].
  set (w := words wb n) in *.
  pose proof (Nat.div_mod w stripmine_max ltac:(discriminate)) as D.
  pose proof (Nat.mod_upper_bound w stripmine_max ltac:(discriminate)) as U.
  assert (w <= (w / stripmine_max + (if Nat.eqb (w mod stripmine_max) 0 then 0 else 1))
               * stripmine_max).
  { destruct (Nat.eqb_spec (w mod stripmine_max) 0); nia. }
  nia.
Qed.

Lemma colbit_zero j : colbit j rzero = false.
Proof. unfold colbit, rzero. apply N.bits_0. Qed.
Lemma colbit_or j a b : colbit j (ror a b) = colbit j a || colbit j b.
Proof. unfold colbit, ror. apply N.lor_spec. Qed.

(* column c = s * bits + j carries the bit of variable c *)
Lemma seed_bit n s j idx : j < bits_per_strip wb n ->
  colbit j (seed wb n s idx) = Nat.eqb (s * bits_per_strip wb n + j) idx && Nat.ltb idx n.
Proof.
  intros J. unfold seed. set (bs := bits_per_strip wb n) in *. cbv zeta.
  set (nxt := if Nat.ltb n (S s * bs) then n else S s * bs).
  assert (Hn : nxt = Nat.min n (S s * bs)).
  { unfold nxt. destruct (Nat.ltb_spec n (S s * bs)); lia. }
  destruct (Nat.leb_spec (s * bs) idx) as [L|L], (Nat.ltb_spec idx nxt) as [U|U]; cbn [andb].
  - rewrite (proj2 (Nat.ltb_lt idx n)) by lia. rewrite andb_true_r.
    set (d := idx - s * bs). assert (Hd : d < bs) by (unfold d; cbn in *; lia).
    unfold colbit. rewrite msb_pow.
    pose proof (Nat.mod_upper_bound d wb ltac:(lia)) as Ud.
    pose proof (Nat.mod_upper_bound j wb ltac:(lia)) as Uj.
    pose proof (Nat.div_mod d wb ltac:(lia)) as Dd.
    pose proof (Nat.div_mod j wb ltac:(lia)) as Dj.
    rewrite shift_pow by lia.
    destruct (Nat.eqb_spec (j / wb) (d / wb)) as [E|E].
    + rewrite N.pow2_bits_eqb.
      destruct (Nat.eqb_spec (s * bs + j) idx) as [F|F].
      * replace j with d by (unfold d; lia). apply N.eqb_refl.
      * apply N.eqb_neq. intros Q. apply F.
        assert (d mod wb = j mod wb) by lia. unfold d in *. nia.
    + rewrite N.bits_0. symmetry. apply Nat.eqb_neq. intros F. apply E.
      replace j with d by (unfold d; lia). reflexivity.
  - rewrite colbit_zero. symmetry. destruct (Nat.ltb_spec idx n); [|apply andb_false_r].
    rewrite andb_true_r. apply Nat.eqb_neq. cbn in *. lia.
  - rewrite colbit_zero. symmetry. destruct (Nat.eqb_spec (s * bs + j) idx); cbn [andb]; auto. lia.
  - rewrite colbit_zero. symmetry. destruct (Nat.eqb_spec (s * bs + j) idx); cbn [andb]; auto. lia.
Qed.
End Bits.
