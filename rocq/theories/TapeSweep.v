From Coq Require Import List Arith Lia ZArith Bool.
From Verif Require Import TapeModel TapeSpec TapeProofs TapeWriter.
Import ListNotations.
Set Implicit Arguments.

Section Reader.
Variable V : Type.
Variable v0 : V.
Variables chO chL chV : nat.
Variables capO capL capV : nat.
Hypothesis HO1 : 3 <= capO.
Hypothesis HO2 : capO < chO.
Hypothesis HL1 : statSpace < capL.
Hypothesis HL2 : capL < chL.
Hypothesis HV1 : 5 <= capV.
Hypothesis HV2 : capV < chV.

Local Notation lay := (@TapeProofs.lay V capO capL capV).
Local Notation step := (@TapeProofs.step V capO capL capV).
Local Notation closed := (@TapeWriter.closed V capO capL capV).
Local Notation aO := (TapeProofs.aO capO).
Local Notation aL := (TapeProofs.aL capL).
Local Notation aV := (TapeProofs.aV capV).

Lemma HL0 : 0 < capL. Proof. lia. Qed.

(** ** Forward sweep *)
Section Sweep.
Variable D : nat -> dec.
Variables (sts : stats) (O L : list nat) (W : list V).

Definition at_f (t : tape V) (s : st) : Prop :=
  (rd capO (opb t) (st_op sts) O (ko s) (po s) /\ fwd capO (opb t) (st_op sts) O (ko s))
  /\ (rd capL (locb t) (st_loc sts) L (kl s) (pl s) /\ fwd capL (locb t) (st_loc sts) L (kl s))
  /\ (rd capV (valb t) (st_val sts) W (kv s) (pv s) /\ fwd capV (valb t) (st_val sts) W (kv s)).
Definition at_r (t : tape V) (s : st) : Prop :=
  (rd capO (opb t) (st_op sts) O (ko s) (po s) /\ bwd capO (opb t) (st_op sts) O (ko s))
  /\ (rd capL (locb t) (st_loc sts) L (kl s) (pl s) /\ bwd capL (locb t) (st_loc sts) L (kl s))
  /\ (rd capV (valb t) (st_val sts) W (kv s) (pv s) /\ bwd capV (valb t) (st_val sts) W (kv s)).

Lemma sub_at_cons T (r : list T) a x ls : sub_at r a (x :: ls) ->
  nth_error r a = Some x /\ sub_at r (S a) ls.
Proof.
  intros H. split.
  - specialize (H 0 ltac:(simpl; lia)). rewrite Nat.add_0_r in H. exact H.
  - intros i Hi. specialize (H (S i) ltac:(simpl; lia)). simpl in H.
    rewrite <- H. f_equal. lia.
Qed.
Lemma sub_at_snoc T (r : list T) a x ls : sub_at r a (ls ++ [x]) ->
  nth_error r (a + length ls) = Some x /\ sub_at r a ls.
Proof.
  intros H. split.
  - rewrite H by (rewrite app_length; simpl; lia).
    rewrite nth_error_app2, Nat.sub_diag by lia. reflexivity.
  - intros i Hi. rewrite H by (rewrite app_length; simpl; lia). apply nth_error_app1; auto.
Qed.

Lemma run_f_spec d : forall t s ls vs, at_f t s -> asks d ls vs ->
  pl s + length ls <= capL -> sub_at L (kl s * capL + pl s) ls ->
  pv s + length vs <= capV -> sub_at W (kv s * capV + pv s) vs ->
  exists t', run_f d t = Some (ls, vs, t')
    /\ at_f t' (mkSt (ko s) (po s) (kl s) (pl s + length ls) (kv s) (pv s + length vs)).
Proof.
  induction d; simpl; intros t s ls vs At As B1 S1 B2 S2.
  - destruct As as (-> & ->). exists t. simpl. rewrite !Nat.add_0_r. destruct s; auto.
  - destruct As as (l & ls' & -> & As). apply sub_at_cons in S1. destruct S1 as (N & S1).
    destruct At as (Ao & (Al & Fl) & Av). simpl in B1.
    destruct (@rd_read _ _ _ _ _ _ _ l Al) as (b' & E & R' & F'); auto; [lia|].
    rewrite E.
    destruct (H l (set_loc t b') (mkSt (ko s) (po s) (kl s) (S (pl s)) (kv s) (pv s)) ls' vs)
      as (t' & E' & At'); simpl; auto; try lia.
    { split; simpl; auto. }
    { rewrite Nat.add_succ_r. auto. }
    rewrite E'. exists t'. split; auto. simpl in At'.
    replace (pl s + S (length ls')) with (S (pl s) + length ls') by lia. auto.
  - destruct As as (v & vs' & -> & As). apply sub_at_cons in S2. destruct S2 as (N & S2).
    destruct At as (Ao & Al & (Av & Fv)). simpl in B2.
    destruct (@rd_read _ _ _ _ _ _ _ v Av) as (b' & E & R' & F'); auto; [lia|].
    rewrite E.
    destruct (IHd (set_val t b') (mkSt (ko s) (po s) (kl s) (pl s) (kv s) (S (pv s))) ls vs')
      as (t' & E' & At'); simpl; auto; try lia.
    { split; simpl; auto. }
    { rewrite Nat.add_succ_r. auto. }
    rewrite E'. exists t'. split; auto. simpl in At'.
    replace (pv s + S (length vs')) with (S (pv s) + length vs') by lia. auto.
Qed.

Lemma special_neq opc : special opc = false ->
  (opc =? end_of_tape) = false /\ (opc =? start_of_tape) = false /\ (opc =? end_of_op) = false
  /\ (opc =? end_of_int) = false /\ (opc =? end_of_val) = false.
Proof.
  unfold special. rewrite !orb_false_iff. tauto.
Qed.

Lemma lay_len es : forall s e, lay O L W es s e -> aO s + length es <= aO e.
Proof.
  induction es as [|x es IH]; intros s e H; inversion H as [|? ? ? ? ? X Y]; subst; simpl; [lia|].
  apply IH in Y. apply (step_mono HO1 HL0) in X. lia.
Qed.

Hypothesis Hso : s_size (st_op sts) = capO.
Hypothesis Hsl : s_size (st_loc sts) = capL.
Hypothesis Hsv : s_size (st_val sts) = capV.

Lemma loop_f_spec es : forall t s e fuel, lay O L W es s e -> at_f t s ->
  Forall (reads_f D) (ops_of es) ->
  (s_acc (st_op sts) = false -> ko e = 0) -> (s_acc (st_loc sts) = false -> kl e = 0) ->
  (s_acc (st_val sts) = false -> kv e = 0) ->
  nth_error O (aO e) = Some end_of_tape -> S (po e) < capO ->
  kl e * capL <= length L -> length es < fuel ->
  exists t', loop_f chO chL chV fuel D sts t = Some (ops_of es, t')
    /\ exists s', at_f t' s'.
Proof.
  induction es as [|x es IH]; intros t s e fuel HL At HF NKo NKl NKv NE HPo HLl HFu.
  - inversion HL; subst. destruct fuel; [lia|]. simpl.
    destruct At as ((Ao & Fo) & Al & Av).
    destruct (@rd_read _ _ _ _ _ _ _ end_of_tape Ao) as (b' & E & R' & F'); auto; [lia|].
    rewrite E. simpl. eexists; split; [reflexivity|].
    exists (mkSt (ko e) (S (po e)) (kl e) (pl e) (kv e) (pv e)). split; simpl; auto.
  - inversion HL as [|? ? ? s' ? ST LR]; subst. clear HL.
    destruct fuel; [lia|]. simpl in HFu.
    pose proof (lay_mono HO1 HL0 LR) as MM.
    destruct At as ((Ao & Fo) & (Al & Fl) & (Av & Fv)).
    inversion ST; subst; cbn [ko po kl pl kv pv] in *; cbn [loop_f].
    + (* start *)
      destruct (@rd_read _ _ _ _ _ _ _ start_of_tape Ao) as (b' & E & R' & F'); auto; [lia|].
      rewrite E. cbn. eapply IH; eauto; try lia.
      split; simpl; auto.
    + (* operation *)
      destruct (@rd_read _ _ _ _ _ _ _ opc Ao) as (b' & E & R' & F'); auto; [lia|].
      rewrite E. destruct (@special_neq _ H) as (-> & -> & -> & -> & ->).
      simpl in HF. inversion HF as [|? ? HF1 HF2]; subst. simpl in HF1.
      destruct (@run_f_spec (D opc) (set_op t b') (mkSt (ko s) (S (po s)) (kl s) (pl s) (kv s) (pv s)) ls vs)
        as (t1 & E1 & At1); simpl; auto.
      { split; simpl; auto. }
      rewrite E1. cbn [ko po kl pl kv pv] in At1.
      destruct (IH t1 _ e fuel LR At1) as (t2 & E2 & s2 & At2); auto; try lia.
      rewrite E2. eexists; split; [reflexivity|]. eauto.
    + (* end_of_op *)
      destruct (@rd_read _ _ _ _ _ _ _ end_of_op Ao) as (b' & E & R' & F'); auto; [lia|].
      rewrite E. cbn [Nat.eqb end_of_op end_of_tape].
      assert (ACC : s_acc (st_op sts) = true).
      { destruct (s_acc (st_op sts)); auto. specialize (NKo eq_refl). lia. }
      assert (LN : S (ko s) * capO <= length O).
      { assert (S (ko s) * capO < length O) by (apply nth_error_Some; congruence). lia. }
      destruct (@rd_block_f _ chO _ _ _ _ _ _ R' (F' Fo) ACC) as (b1 & E1 & X1 & R1 & F1); auto; [lia|].
      unfold get_op_block_f. rewrite Hso. cbn [opb set_op]. rewrite E1.
      rewrite (Nat.mod_small (Nat.min capO (bnum b')) chO) by lia.
      cbn [opb set_op].
      destruct (@rd_read _ _ _ _ _ _ _ end_of_op R1) as (b2 & E2 & R2 & F2); auto; [lia|rewrite Nat.add_0_r; auto|].
      rewrite E2. eapply IH; eauto; try lia. split; simpl; auto.
    + (* end_of_int *)
      destruct (@rd_read _ _ _ _ _ _ _ end_of_int Ao) as (b' & E & R' & F'); auto; [lia|].
      rewrite E. cbn [Nat.eqb end_of_op end_of_tape end_of_int].
      assert (ACC : s_acc (st_loc sts) = true).
      { destruct (s_acc (st_loc sts)); auto. specialize (NKl eq_refl). lia. }
      assert (LN : S (kl s) * capL <= length L) by nia.
      destruct (@rd_block_f _ chL _ _ _ _ _ _ Al Fl ACC) as (b1 & E1 & X1 & R1 & F1); auto; [lia|].
      unfold get_loc_block_f. rewrite Hsl. cbn [locb set_op]. rewrite E1.
      eapply IH; eauto; try lia. split; simpl; auto.
    + (* end_of_val *)
      destruct (@rd_read _ _ _ _ _ _ _ end_of_val Ao) as (b' & E & R' & F'); auto; [lia|].
      rewrite E. cbn [Nat.eqb end_of_op end_of_tape end_of_int end_of_val].
      assert (ACC : s_acc (st_val sts) = true).
      { destruct (s_acc (st_val sts)); auto. specialize (NKv eq_refl). lia. }
      destruct (@rd_block_f _ chV _ _ _ _ _ _ Av Fv ACC) as (b1 & E1 & X1 & R1 & F1); auto; [lia|].
      unfold get_val_block_f. rewrite Hsv. cbn [locb valb opb set_op]. rewrite E1.
      assert (PL : bpos (locb t) = pl s) by apply Al.
      assert (CL : bcap (locb t) = capL) by apply Al.
      rewrite PL, CL. destruct (Nat.ltb_spec (pl s) capL); [|lia].
      eapply IH; eauto; try lia. split; [simpl; auto|]. split; simpl; auto.
      split; [|exact Fl]. destruct Al as [[? ? ? ? ?] ? ? ?].
      constructor; simpl; auto. constructor; auto.
Qed.

Lemma at_f_closed t t' es e s : closed t sts O L W es e -> at_f t' s -> closed t' sts O L W es e.
Proof.
  intros [] ((A & _) & (B & _) & (C & _)).
  constructor; auto; [apply A|apply B|apply C].
Qed.
Lemma at_r_closed t t' es e s : closed t sts O L W es e -> at_r t' s -> closed t' sts O L W es e.
Proof.
  intros [] ((A & _) & (B & _) & (C & _)).
  constructor; auto; [apply A|apply B|apply C].
Qed.

Lemma prepare_for_gen_spec T ch cap (b : buf T) s r : closed_stream cap b s r ->
  0 < cap -> cap < ch ->
  exists b', prepare_for_gen ch s b = Some b' /\ rd cap (set_pos b' 0) s r 0 0
    /\ fwd cap (set_pos b' 0) s r 0.
Proof.
  intros [C1 C2 C3 C4 C5] H0 H1. unfold prepare_for_gen.
  destruct (s_acc s) eqn:EA.
  - rewrite C1, C2. destruct (Nat.eqb_spec (Nat.min cap (length r)) 0).
    + assert (LR : length r = 0) by lia. destruct r; [|simpl in LR; lia].
      eexists; split; [reflexivity|]. split.
      * constructor; simpl; auto; try congruence.
        -- constructor; simpl; auto; try congruence.
        -- intros [|i]; discriminate.
      * intros _. simpl. lia.
    + rewrite read_bloc_small by lia.
      destruct (C4 eq_refl) as [F|(_ & ->)]; [|simpl in n; lia].
      destruct (@read_n_small _ ch (fopen b) r (Nat.min cap (length r))) as (b1 & E & X1 & X2 & X3 & X4 & X5 & X6);
        auto; try (unfold bcap; simpl; lia).
      rewrite E. eexists; split; [reflexivity|]. simpl in *. split.
      * constructor; simpl; auto; try congruence.
        -- constructor; simpl; auto; try congruence.
        -- intros i c Hi N. apply X6; auto.
           assert (i < length r) by (apply nth_error_Some; congruence). lia.
      * intros _. simpl. rewrite X4. lia.
  - eexists; split; [reflexivity|]. destruct (C5 eq_refl) as (L5 & E5). split.
    + constructor; simpl; auto.
      * constructor; simpl; auto; congruence.
      * intros i c Hi N. assert (i < length r) by (apply nth_error_Some; congruence).
        rewrite <- E5, nth_firstn in N. destruct (i <? length r); [auto|discriminate].
    + intros A. congruence.
Qed.

Lemma sweep_f_spec t es e fuel : closed t sts O L W es e -> Forall (reads_f D) (ops_of es) ->
  length es < fuel ->
  exists t', sweep_f chO chL chV fuel D sts t = Some (ops_of es, t') /\ closed t' sts O L W es e.
Proof.
  intros C HF HFu. assert (C' := C).
  destruct C as [cl_o0 cl_l0 cl_v0 CL CE CN cl_nl0 NV PO PO1 PL PV AO AL AV]. unfold sweep_f, prepare_for.
  destruct (@prepare_for_gen_spec _ chO _ _ _ _ cl_o0) as (o & Eo & Ro & Fo); auto; [lia|].
  destruct (@prepare_for_gen_spec _ chL _ _ _ _ cl_l0) as (l & El & Rl & Fl); auto; [lia|].
  destruct (@prepare_for_gen_spec _ chV _ _ _ _ cl_v0) as (v & Ev & Rv & Fv); auto; [lia|].
  rewrite Eo, El, Ev. cbn [skip_stat]. rewrite Hsl.
  destruct (Nat.leb_spec capL statSpace); [lia|].
  destruct (@loop_f_spec es (set_loc (mkTape (set_pos o 0) l (set_pos v 0)) (set_pos l statSpace)) s0 e fuel)
    as (t' & E & s' & At'); auto.
  - split; [simpl; auto|]. split; [|simpl; auto]. simpl. split; [|exact Fl].
    destruct Rl as [[? ? ? ? ?] ? ? ?]. constructor; simpl; auto. constructor; simpl; auto.
  - rewrite cl_nl0. unfold TapeProofs.aL. lia.
  - exists t'. split; auto. eapply at_f_closed; eauto.
Qed.

(** ** Reverse sweep *)
Lemma run_r_spec d : forall t s ls vs, at_r t (mkSt (ko s) (po s) (kl s) (pl s + length ls) (kv s) (pv s + length vs)) ->
  asks d (rev ls) (rev vs) ->
  pl s + length ls <= capL -> sub_at L (kl s * capL + pl s) ls ->
  pv s + length vs <= capV -> sub_at W (kv s * capV + pv s) vs ->
  exists t', run_r d t = Some (ls, vs, t') /\ at_r t' s.
Proof.
  induction d; simpl; intros t s ls vs At As B1 S1 B2 S2.
  - destruct As as (X & Y). apply (f_equal (@rev _)) in X. apply (f_equal (@rev _)) in Y.
    rewrite rev_involutive in *. simpl in *. subst. exists t. simpl in At. rewrite !Nat.add_0_r in At.
    destruct s; auto.
  - destruct As as (l & ls' & X & As).
    assert (X' : ls = rev ls' ++ [l]).
    { apply (f_equal (@rev _)) in X. rewrite rev_involutive in X. simpl in X. auto. }
    subst ls. clear X. apply sub_at_snoc in S1. destruct S1 as (N & S1).
    destruct At as (Ao & (Al & Fl) & Av). cbn [ko po kl pl kv pv] in *.
    rewrite app_length in *. simpl in B1, Al, Fl.
    replace (pl s + (length (rev ls') + 1)) with (S (pl s + length (rev ls'))) in Al by lia.
    destruct (@rd_retreat _ _ _ _ _ _ _ l Al) as (b' & E & R' & F'); auto; [lia|rewrite Nat.add_assoc; auto|].
    rewrite E.
    destruct (H l (set_loc t b') s (rev ls') vs) as (t' & E' & At'); simpl; auto; try lia.
    { split; simpl; auto. }
    { rewrite rev_involutive. auto. }
    rewrite E'. exists t'. split; auto.
  - destruct As as (v & vs' & X & As).
    assert (X' : vs = rev vs' ++ [v]).
    { apply (f_equal (@rev _)) in X. rewrite rev_involutive in X. simpl in X. auto. }
    subst vs. clear X. apply sub_at_snoc in S2. destruct S2 as (N & S2).
    destruct At as (Ao & Al & (Av & Fv)). cbn [ko po kl pl kv pv] in *.
    rewrite app_length in *. simpl in B2, Av, Fv.
    replace (pv s + (length (rev vs') + 1)) with (S (pv s + length (rev vs'))) in Av by lia.
    destruct (@rd_retreat _ _ _ _ _ _ _ v Av) as (b' & E & R' & F'); auto; [lia|rewrite Nat.add_assoc; auto|].
    rewrite E.
    destruct (IHd (set_val t b') s ls (rev vs')) as (t' & E' & At'); simpl; auto; try lia.
    { split; simpl; auto. }
    { rewrite rev_involutive. auto. }
    rewrite E'. exists t'. split; auto.
Qed.

Lemma rd_setpos T cap (b : buf T) s r k p q : rd cap b s r k p -> rd cap (set_pos b q) s r k q.
Proof. intros [[? ? ? ? ?] ? ? ?]. constructor; simpl; auto. constructor; simpl; auto. Qed.

Lemma loop_r_spec es : forall t e fuel, lay O L W es s0 e -> at_r t e -> 1 <= po e ->
  Forall (reads_r D) (ops_of es) ->
  (s_acc (st_op sts) = false -> ko e = 0) -> (s_acc (st_loc sts) = false -> kl e = 0) ->
  (s_acc (st_val sts) = false -> kv e = 0) ->
  ko e * capO <= length O -> kl e * capL <= length L -> kv e * capV <= length W ->
  length es < fuel ->
  exists t', loop_r chO chL chV fuel D sts t = Some (rev (ops_of es), t')
    /\ exists s', at_r t' s'.
Proof.
  induction es as [|x es IH] using rev_ind; intros t e fuel HL At PE HF NKo NKl NKv HLo HLl HLv HFu.
  - inversion HL; subst. simpl in PE. lia.
  - apply lay_split in HL. destruct HL as (s1 & LR & ST).
    inversion ST as [|? ? ? s2 ? ST' E']; subst. inversion E'; subst. clear ST E'. rename ST' into ST.
    destruct fuel; [lia|]. rewrite app_length in HFu. simpl in HFu.
    pose proof (step_mono HO1 HL0 ST) as MM.
    rewrite ops_of_app in *. apply Forall_app in HF. destruct HF as (HF & HX).
    destruct At as ((Ao & Fo) & (Al & Fl) & (Av & Fv)).
    inversion ST; subst; cbn [ko po kl pl kv pv] in *; cbn [loop_r].
    + (* start *)
      destruct (@rd_retreat _ _ _ _ _ _ _ start_of_tape Ao) as (b' & E & R' & F'); auto; [lia|].
      rewrite E. cbn.
      pose proof (lay_len LR) as LL. unfold TapeProofs.aO in LL. simpl in LL.
      rewrite H, H0 in LL. destruct es; [|simpl in LL; lia]. simpl.
      eexists; split; [reflexivity|]. eexists (mkSt _ _ _ _ _ _). split; simpl; eauto.
    + (* operation *)
      destruct (@rd_retreat _ _ _ _ _ _ _ opc Ao) as (b' & E & R' & F'); auto; [lia|].
      rewrite E. destruct (@special_neq _ H) as (-> & -> & -> & -> & ->).
      simpl in HX. inversion HX as [|? ? HX1 _]; subst. simpl in HX1.
      destruct (@run_r_spec (D opc) (set_op t b') s1 ls vs)
        as (t1 & E1 & At1); simpl; auto.
      { split; simpl; auto. }
      rewrite E1.
      destruct (IH t1 s1 fuel LR At1) as (t2 & E2 & s2 & At2); auto; try lia.
      rewrite E2. rewrite rev_app_distr. eexists; split; [reflexivity|]. eauto.
    + (* end_of_op *)
      destruct (@rd_retreat _ _ _ _ _ _ _ end_of_op Ao) as (b' & E & R' & F'); auto; [lia|rewrite Nat.add_0_r; auto|].
      rewrite E. cbn [Nat.eqb end_of_op end_of_tape start_of_tape].
      assert (ACC : s_acc (st_op sts) = true).
      { destruct (s_acc (st_op sts)); auto. specialize (NKo eq_refl). lia. }
      destruct (@rd_block_r _ chO _ _ _ _ _ _ capO R' (F' Fo) ACC) as (b1 & E0 & E1 & X1 & X2 & R1 & F1); auto; [lia|].
      unfold get_op_block_r. rewrite Hso. cbn [opb set_op]. rewrite E0, E1.
      cbn [opb set_op].
      replace (set_pos (set_num b1 (bnum b1 - capO)) capO) with
        (set_pos (set_num b1 (bnum b1 - capO)) (S (capO - 1))) in * by (f_equal; lia).
      replace (rd capO _ _ _ _ capO) with
        (rd capO (set_pos (set_num b1 (bnum b1 - capO)) (S (capO - 1))) (st_op sts) O (ko s1) (S (capO - 1))) in R1 by (f_equal; lia).
      destruct (@rd_retreat _ _ _ _ _ _ _ end_of_op R1) as (b2 & E2 & R2 & F2); auto; [lia|congruence|].
      rewrite E2. rewrite app_nil_r. eapply IH; eauto; try lia; try congruence. split; simpl; auto. rewrite H. auto.
    + (* end_of_int *)
      destruct (@rd_retreat _ _ _ _ _ _ _ end_of_int Ao) as (b' & E & R' & F'); auto; [lia|].
      rewrite E. cbn [Nat.eqb end_of_op end_of_tape end_of_int start_of_tape].
      assert (ACC : s_acc (st_loc sts) = true).
      { destruct (s_acc (st_loc sts)); auto. specialize (NKl eq_refl). lia. }
      destruct (@rd_block_r _ chL _ _ _ _ _ _ (pl s1) Al Fl ACC) as (b1 & E0 & E1 & X1 & X2 & R1 & F1); auto; [lia|].
      unfold get_loc_block_r. rewrite Hsl. cbn [locb set_op]. rewrite E0, E1, X1.
      rewrite (X2 (capL - 1) (capL - pl s1)) by (auto; lia).
      destruct (Nat.ltb_spec capL (capL - pl s1)); [lia|].
      replace (capL - (capL - pl s1)) with (pl s1) by lia.
      rewrite app_nil_r. eapply IH; eauto; try lia; try congruence. split; simpl; auto.
    + (* end_of_val *)
      destruct (@rd_retreat _ _ _ _ _ _ _ end_of_val Ao) as (b' & E & R' & F'); auto; [lia|].
      rewrite E. cbn [Nat.eqb end_of_op end_of_tape end_of_int end_of_val start_of_tape].
      assert (ACC : s_acc (st_val sts) = true).
      { destruct (s_acc (st_val sts)); auto. specialize (NKv eq_refl). lia. }
      destruct (@rd_block_r _ chV _ _ _ _ _ _ (pv s1) Av Fv ACC) as (b1 & E0 & E1 & X1 & X2 & R1 & F1); auto; [lia|].
      unfold get_val_block_r. rewrite Hsv. cbn [locb valb opb set_op]. rewrite E0, E1, X1.
      destruct (@rd_retreat _ _ _ _ _ _ _ (capV - pv s1) Al) as (b2 & E2 & R2 & F2); auto.
      rewrite E2.
      destruct (Nat.ltb_spec capV (capV - pv s1)); [lia|].
      replace (capV - (capV - pv s1)) with (pv s1) by lia.
      rewrite app_nil_r. eapply IH; eauto; try lia; try congruence. split; simpl; auto.
Qed.

Lemma prepare_rev_gen_spec T ch cap (b : buf T) s r k p : closed_stream cap b s r ->
  0 < cap -> cap < ch -> length r = k * cap + p -> p < cap \/ s_acc s = false ->
  (s_acc s = true -> bfile b <> None) -> (s_acc s = false -> k = 0) ->
  exists b', prepare_rev_gen ch s b = Some b' /\ rd cap b' s r k p /\ bwd cap b' s r k.
Proof.
  intros [C1 C2 C3 C4 C5] H0 H1 HR HP HN HK. unfold prepare_rev_gen.
  destruct (s_acc s) eqn:EA.
  - destruct HP as [HP|?]; [|discriminate]. rewrite C1, C2, HR.
    rewrite Nat.add_comm, Nat.mod_add, Nat.mod_small, Nat.div_add, Nat.div_small by lia. simpl.
    destruct (bfile b) as [f|] eqn:EF; [|exfalso; apply (HN eq_refl); auto].
    destruct (C4 eq_refl) as [F|(F & _)]; [|congruence]. inversion F; subst f. clear F.
    destruct (Nat.eqb_spec p 0).
    + subst p. eexists; split; [reflexivity|]. split.
      * constructor; simpl; auto; try congruence.
        -- constructor; simpl; auto; try congruence.
        -- intros i c Hi N. assert (k * cap + i < length r) by (apply nth_error_Some; congruence). lia.
      * intros _. simpl. lia.
    + rewrite read_bloc_small by lia.
      destruct (@read_n_small _ ch (fseek (fopen b) (k * cap)) r p) as (b1 & E & X1 & X2 & X3 & X4 & X5 & X6);
        auto; try (unfold bcap; simpl; lia).
      rewrite E. eexists; split; [reflexivity|]. simpl in *. split.
      * constructor; simpl; auto; try congruence.
        -- constructor; simpl; auto; try congruence.
        -- intros i c Hi N. apply X6; auto.
           assert (k * cap + i < length r) by (apply nth_error_Some; congruence). lia.
      * intros _. simpl. lia.
  - eexists; split; [reflexivity|]. destruct (C5 eq_refl) as (L5 & E5).
    rewrite (HK eq_refl) in *. simpl in HR. split.
    + constructor; simpl; auto; try lia.
      * constructor; simpl; auto; congruence.
      * intros i c Hi N. assert (i < length r) by (apply nth_error_Some; congruence).
        rewrite <- E5, nth_firstn in N. destruct (i <? length r); [auto|discriminate].
    + intros A. congruence.
Qed.

(** the parameters behind the last constant of the tape do not reach into the
    value block before the one that is loaded first *)
Definition params_in_block : Prop :=
  s_acc (st_val sts) = true -> n_param sts <= s_num (st_val sts) mod capV.
(** the files the reverse sweep positions in exist *)
Definition files_exist : Prop :=
  s_acc (st_val sts) = true -> 0 < s_num (st_val sts).

Lemma sweep_r_spec t es e fuel : closed t sts O L W es e -> Forall (reads_r D) (ops_of es) ->
  params_in_block -> files_exist ->
  S (length es) < fuel ->
  exists t', sweep_r chO chL chV fuel D sts t = Some (rev (ops_of es), t') /\ closed t' sts O L W es e.
Proof.
  intros C HF HP HN HFu. assert (C' := C).
  destruct C as [Co Cl Cv CL CE CN NL NV PO PO1 PL PV AO AL AV]. unfold sweep_r, prepare_rev.
  assert (FE : forall T cap (b : buf T) s r, closed_stream cap b s r -> 0 < length r ->
             s_acc s = true -> bfile b <> None).
  { intros T cap b s r [_ _ _ X _] HH A. destruct (X A) as [Y|(Y & ->)]; [congruence|simpl in HH; lia]. }
  destruct (@prepare_rev_gen_spec _ chO _ _ _ _ (ko e) (S (po e)) Co) as (o & Eo & Ro & Fo); auto; try lia.
  { rewrite CN. unfold TapeProofs.aO. lia. }
  { apply (FE _ _ _ _ _ Co). lia. }
  destruct (@prepare_rev_gen_spec _ chL _ _ _ _ (kl e) (pl e) Cl) as (l & El & Rl & Fl); auto; try lia.
  { apply (FE _ _ _ _ _ Cl).
    pose proof (lay_mono HO1 HL0 CL) as MM. unfold TapeProofs.aL, s0, statSpace in MM. simpl in MM.
    rewrite NL. unfold TapeProofs.aL. lia. }
  assert (NV' : s_num (st_val sts) = kv e * capV + (pv e + n_param sts)).
  { destruct Cv as [_ X _ _ _]. rewrite X, NV. unfold TapeProofs.aV. lia. }
  destruct (@prepare_rev_gen_spec _ chV _ _ _ _ (kv e) (pv e + n_param sts) Cv) as (v & Ev & Rv & Fv); auto; try lia.
  { rewrite NV. unfold TapeProofs.aV. lia. }
  { destruct (s_acc (st_val sts)) eqn:EA; auto. left.
    specialize (HP EA). destruct (Nat.ltb_spec (pv e + n_param sts) capV); auto.
    exfalso. rewrite NV', Nat.add_comm, Nat.mod_add in HP by lia.
    assert (n_param sts > (pv e + n_param sts) mod capV); [|lia].
    pose proof (Nat.mod_upper_bound (pv e + n_param sts) capV ltac:(lia)).
    destruct (Nat.ltb_spec (n_param sts) capV); [|lia].
    assert (Q : (pv e + n_param sts) mod capV = pv e + n_param sts - capV).
    { symmetry. apply Nat.mod_unique with (q := 1); lia. }
    lia. }
  { intros A. apply (FE _ _ _ _ _ Cv); auto.
    assert (X : s_num (st_val sts) = length W) by apply Cv. specialize (HN A). lia. }
  rewrite Eo, El, Ev.
  destruct fuel as [|fuel]; [lia|]. cbn [loop_r opb].
  destruct (@rd_retreat _ _ _ _ _ _ _ end_of_tape Ro) as (o' & Eo' & Ro' & Fo'); auto; [lia|].
  rewrite Eo'. cbn [Nat.eqb end_of_op end_of_tape end_of_int end_of_val start_of_tape].
  cbn [valb set_op].
  assert (DP : discard_params chV (S (n_param sts)) (n_param sts) v = Some (set_pos v (pv e))).
  { assert (BP : bpos v = pv e + n_param sts) by apply Rv.
    cbn [discard_params]. destruct (Nat.eqb_spec (n_param sts) 0).
    - f_equal. rewrite e0, Nat.add_0_r in BP. rewrite <- BP. destruct v; auto.
    - rewrite BP, Nat.min_r by lia. rewrite Nat.sub_diag. simpl. do 2 f_equal. lia. }
  rewrite DP.
  destruct (@loop_r_spec es (set_val (set_op (mkTape o l v) o') (set_pos v (pv e))) e fuel)
    as (t' & E & s' & At'); auto; try lia.
  - split; [|split]; simpl; auto. split; auto. eapply rd_setpos; eauto.
  - rewrite CN. unfold TapeProofs.aO. lia.
  - rewrite NL. unfold TapeProofs.aL. lia.
  - rewrite NV. unfold TapeProofs.aV. lia.
  - exists t'. split; auto. eapply at_r_closed; eauto.
Qed.

End Sweep.

End Reader.
