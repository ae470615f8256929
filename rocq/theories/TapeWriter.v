From Coq Require Import List Arith Lia ZArith Bool.
From Verif Require Import TapeModel TapeSpec TapeProofs.
Import ListNotations.
Set Implicit Arguments.

Section Writer.
Variable V : Type.
Variable v0 : V.
Variables chO chL chV : nat.
Variables capO capL capV : nat.
Hypothesis HO1 : 3 <= capO.
Hypothesis HO2 : capO < chO.
Hypothesis HL1 : statSpace < capL.
Hypothesis HL2 : capL < chL.
Hypothesis HL3 : (Z.of_nat capL < 2 ^ 64)%Z.
Hypothesis HV1 : 5 <= capV.
Hypothesis HV2 : capV < chV.
Hypothesis HV3 : (Z.of_nat capV < 2 ^ 64)%Z.

Local Notation lay := (@TapeProofs.lay V capO capL capV).
Local Notation step := (@TapeProofs.step V capO capL capV).
Local Notation aO := (TapeProofs.aO capO).
Local Notation aL := (TapeProofs.aL capL).
Local Notation aV := (TapeProofs.aV capV).

Lemma HL0 : 0 < capL. Proof. lia. Qed.

Definition s0 := mkSt 0 0 0 statSpace 0 0.

Definition WS (t : tape V) (s : st) : Prop :=
  good capO (opb t) (ko s) (po s) /\ good capL (locb t) (kl s) (pl s)
  /\ good capV (valb t) (kv s) (pv s).

Definition laid (t : tape V) (es : list (ev V)) (s : st) : Prop :=
  WS t s /\ lay (raw (opb t)) (raw (locb t)) (raw (valb t)) es s0 s
  /\ 1 <= po s < capO /\ pl s < capL.

Definition bump s := mkSt (ko s) (S (po s)) (kl s) (pl s) (kv s) (pv s).

Lemma lay_extO O L W o es s s' : lay O L W es s s' -> length O >= aO s' ->
  lay (O ++ o) L W es s s'.
Proof.
  intros. eapply lay_agree; eauto using HL0; intros; auto.
  rewrite nth_error_app1 by lia; auto.
Qed.

Lemma write_cur_good T cap (b : buf T) k p v : good cap b k p -> p < cap ->
  exists b', write_cur b v = Some b' /\ good cap b' k p /\ raw b' = raw b
    /\ bdata b' = upd (bdata b) p v.
Proof.
  intros G H. assert (G' := G). destruct G as [? ? ? ? ? ?]. unfold write_cur, bcap.
  destruct (Nat.ltb_spec (bpos b) (length (bdata b))); [|lia].
  eexists; split; [reflexivity|]. subst p.
  edestruct (@set_data_good _ _ _ _ _ (upd (bdata b) (bpos b) v) G') as [X Y]; auto.
  - rewrite upd_length; auto.
  - apply firstn_upd_ge; auto.
Qed.

Lemma op_cell_spec (t : tape V) c L W es s :
  good capO (opb t) (ko s) (po s) -> 1 <= po s < capO ->
  lay (raw (opb t)) L W es s0 s ->
  exists t' es' s', op_cell chO t c = Some t' /\ locb t' = locb t /\ valb t' = valb t
    /\ good capO (opb t') (ko s') (S (po s')) /\ (1 <= po s' /\ S (po s') < capO)
    /\ kl s' = kl s /\ pl s' = pl s /\ kv s' = kv s /\ pv s' = pv s
    /\ lay (raw (opb t')) L W es' s0 s'
    /\ nth_error (raw (opb t')) (aO s') = Some c
    /\ ops_of es' = ops_of es.
Proof.
  intros G HP HL. unfold op_cell.
  assert (C : bcap (opb t) = capO) by apply G.
  assert (P : bpos (opb t) = po s) by apply G.
  pose proof (good_raw_len G) as RL.
  rewrite C, P. destruct (Nat.eqb_spec (po s) (capO - 1)).
  - destruct (write_cur_good end_of_op G) as (b1 & E1 & G1 & R1 & D1); [lia|].
    rewrite E1. destruct (put_block_good G1 HO2) as (b2 & E2 & G2 & R2 & D2); [lia|].
    rewrite E2. destruct (write_adv_good end_of_op G2) as (b3 & E3 & G3 & R3); [lia|].
    rewrite E3. destruct (write_adv_good c G3) as (b4 & E4 & G4 & R4); [lia|].
    rewrite E4. set (s1 := mkSt (S (ko s)) 1 (kl s) (pl s) (kv s) (pv s)).
    exists (set_op t b4), (es ++ [EEop V]), s1. simpl.
    assert (SK : skipn (po s) (bdata b1) = [end_of_op]).
    { rewrite D1. assert (HH : length (bdata (opb t)) = capO) by apply G.
      rewrite <- (firstn_skipn (po s) (bdata (opb t))).
      set (x := bdata (opb t)) in *.
      assert (length (skipn (po s) x) = 1) by (rewrite skipn_length; lia).
      destruct (skipn (po s) x) as [|a [|]] eqn:E; simpl in H; try lia.
      assert (HF : length (firstn (po s) x) = po s) by (rewrite firstn_length; lia).
      clear - HF. revert HF. generalize (firstn (po s) x) as y. generalize (po s).
      induction n; destruct y; simpl; intros; try lia; auto. }
    rewrite R4, R3, R2, SK, R1.
    repeat split; auto; try lia; try apply G4.
    + apply lay_snoc with (s' := s).
      * do 3 (apply lay_extO; [|rewrite ?app_length; unfold TapeProofs.aO; simpl; lia]).
        eauto.
      * apply s_eop; auto.
        -- rewrite !nth_error_app1 by (rewrite ?app_length; simpl; lia).
           rewrite nth_error_app2 by lia. rewrite RL, Nat.sub_diag. reflexivity.
        -- rewrite nth_error_app1 by (rewrite ?app_length; simpl; lia).
           rewrite nth_error_app2 by (rewrite ?app_length; simpl; lia).
           rewrite app_length. simpl.
           replace (_ - _) with 0 by lia. reflexivity.
    + rewrite nth_error_app2 by (rewrite ?app_length; unfold TapeProofs.aO; simpl; lia).
      rewrite !app_length. unfold TapeProofs.aO, s1. simpl.
      replace (_ - _) with 0 by lia. reflexivity.
    + rewrite ops_of_app. simpl. apply app_nil_r.
  - destruct (write_adv_good c G) as (b4 & E4 & G4 & R4); [lia|].
    rewrite E4. exists (set_op t b4), es, s. simpl. rewrite R4.
    repeat split; auto; try lia; try apply G4.
    + apply lay_extO; auto. unfold TapeProofs.aO. lia.
    + unfold TapeProofs.aO. rewrite nth_error_app2 by lia. rewrite RL, Nat.sub_diag. auto.
Qed.

Lemma flush_loc_spec t es s r : laid t es s -> 10 + r <= capL ->
  exists t' es' s', flush_loc chO chL t r = Some t' /\ laid t' es' s'
    /\ pl s' <= capL - (10 + r) /\ ops_of es' = ops_of es.
Proof.
  intros ((Go & Gl & Gv) & HL & HP & HPl) Hr. unfold flush_loc, maxLocsPerOp.
  assert (C : bcap (locb t) = capL) by apply Gl.
  assert (P : bpos (locb t) = pl s) by apply Gl.
  rewrite C, P, gt64_spec by auto.
  destruct (Nat.ltb_spec (capL - (10 + r)) (pl s)).
  2:{ exists t, es, s. repeat split; auto; try lia; apply Go || apply Gl || apply Gv. }
  destruct (Nat.ltb_spec 0 capL); [|lia].
  set (rem := capL - pl s).
  set (d := upd (blit (bdata (locb t)) (pl s) (repeat 0 (rem - 1))) (capL - 1) rem).
  assert (LD : length (bdata (locb t)) = capL) by apply Gl.
  assert (LB : length (blit (bdata (locb t)) (pl s) (repeat 0 (rem - 1))) = capL).
  { rewrite blit_length; rewrite ?repeat_length; subst rem; lia. }
  destruct (@set_data_good _ _ _ _ _ d Gl) as (G1 & R1).
  { unfold d. rewrite upd_length. auto. }
  { unfold d. rewrite firstn_upd_ge by lia. apply firstn_blit. lia. }
  destruct (put_block_good G1 HL2) as (b2 & E2 & G2 & R2 & D2); [lia|].
  replace (bcap (set_data (locb t) d)) with capL in E2.
  2:{ unfold bcap, d. simpl. rewrite upd_length. auto. }
  rewrite E2.
  pose proof (good_raw_len Gl) as RL.
  assert (HL' : lay (raw (opb t)) (raw b2) (raw (valb t)) es s0 s).
  { rewrite R2, R1. eapply lay_agree; eauto using HL0; intros; auto.
    rewrite nth_error_app1; auto. rewrite RL. unfold TapeProofs.aL in *. lia. }
  destruct (@op_cell_spec (set_loc t b2) end_of_int (raw b2) (raw (valb t)) es s)
    as (t' & es' & s' & E & A1 & A2 & A3 & A4 & A5 & A6 & A7 & A8 & A9 & A10 & A11); auto.
  simpl in *.
  rewrite E. exists t', (es' ++ [EInt V]), (mkSt (ko s') (S (po s')) (S (kl s')) 0 (kv s') (pv s')).
  split; [reflexivity|].
  split; [|split].
  - split; [|split; [|simpl; lia]].
    + repeat split; simpl; rewrite ?A1, ?A2, ?A5, ?A6, ?A7, ?A8; auto;
        apply A3 || apply G2 || apply Gv.
    + rewrite A1, A2. eapply lay_snoc; [eauto|].
      apply s_int; auto; try lia.
      rewrite A5, A6, R2, R1. simpl.
      rewrite nth_error_app2 by lia. rewrite RL, nth_skipn. unfold d. rewrite nth_upd, LB.
      replace (_ && _) with true.
      * f_equal.
      * symmetry. apply andb_true_intro. split; [apply Nat.eqb_eq|apply Nat.ltb_lt]; lia.
  - simpl. lia.
  - rewrite ops_of_app. simpl. rewrite app_nil_r. auto.
Qed.

Lemma put_loc_spec (t : tape V) k p l : good capL (locb t) k p -> p < capL ->
  exists t', put_loc t l = Some t' /\ opb t' = opb t /\ valb t' = valb t
    /\ good capL (locb t') k (S p) /\ raw (locb t') = raw (locb t) ++ [l].
Proof.
  intros G H. unfold put_loc. destruct (write_adv_good l G H) as (b & E & G' & R).
  rewrite E. eexists; repeat split; eauto; apply G'.
Qed.
Arguments put_loc_spec {t k p} l _ _.
Lemma put_locs_spec ls : forall (t : tape V) k p, good capL (locb t) k p -> p + length ls <= capL ->
  exists t', put_locs t ls = Some t' /\ opb t' = opb t /\ valb t' = valb t
    /\ good capL (locb t') k (p + length ls) /\ raw (locb t') = raw (locb t) ++ ls.
Proof.
  induction ls; simpl; intros t k p G H.
  - exists t. rewrite Nat.add_0_r, app_nil_r. repeat split; auto; apply G.
  - destruct (put_loc_spec a G) as (t1 & E1 & A1 & A2 & G1 & R1); [lia|].
    rewrite E1. destruct (IHls t1 _ _ G1) as (t2 & E2 & A3 & A4 & G2 & R2); [lia|].
    exists t2. rewrite E2. split; auto. split; [congruence|]. split; [congruence|].
    split. { replace (p + S (length ls)) with (S p + length ls) by lia. auto. }
    rewrite R2, R1, <- app_assoc. reflexivity.
Qed.
Arguments put_locs_spec ls {t k p} _ _.
Lemma put_vals_spec vs : forall (t : tape V) k p, good capV (valb t) k p ->
  p + length vs <= capV ->
  exists t', put_vals t vs = Some t' /\ opb t' = opb t /\ locb t' = locb t
    /\ good capV (valb t') k (p + length vs) /\ raw (valb t') = raw (valb t) ++ vs.
Proof.
  induction vs; simpl; intros t k p G H.
  - exists t. rewrite Nat.add_0_r, app_nil_r. repeat split; auto; apply G.
  - unfold put_val. destruct (write_adv_good a G) as (b & E & G1 & R1); [lia|].
    rewrite E. destruct (IHvs (set_val t b) _ _ G1) as (t2 & E2 & A3 & A4 & G2 & R2); [lia|].
    exists t2. rewrite E2. split; auto. split; auto. split; auto.
    split. { replace (p + S (length vs)) with (S p + length vs) by lia. auto. }
    rewrite R2. simpl. rewrite R1, <- app_assoc. reflexivity.
Qed.

Arguments put_vals_spec vs t {k p} _ _.

(** writing out the value buffer: common part of flush_val, get_val_space and
    put_vals_writeBlock *)
Lemma end_val_spec t es s d : laid t es s ->
  length d = capV -> firstn (pv s) d = firstn (pv s) (bdata (valb t)) ->
  exists t1 b' t' es' s',
    put_loc t (capV - pv s) = Some t1 /\ valb t1 = valb t
    /\ put_block chV (set_data (valb t) d) capV = Some b'
    /\ op_cell chO (set_val t1 b') end_of_val = Some t'
    /\ WS t' s' /\ lay (raw (opb t')) (raw (locb t')) (raw (valb t')) es' s0 s'
    /\ 1 <= po s' < capO /\ pl s' = S (pl s) /\ pv s' = 0
    /\ ops_of es' = ops_of es.
Proof.
  intros ((Go & Gl & Gv) & HL & HP & HPl) LD FD.
  destruct (put_loc_spec (capV - pv s) Gl HPl) as (t1 & E1 & A1 & A2 & G1 & R1).
  destruct (@set_data_good _ _ _ _ _ d Gv LD FD) as (Gd & Rd).
  destruct (put_block_good Gd HV2) as (b2 & E2 & G2 & R2 & D2); [lia|].
  replace (bcap (set_data (valb t) d)) with capV in E2 by (unfold bcap; simpl; auto).
  pose proof (good_raw_len Gl) as RLl. pose proof (good_raw_len Gv) as RLv.
  pose proof (good_raw_len G2) as RLv2.
  assert (HL' : lay (raw (opb t)) (raw (locb t1)) (raw b2) es s0 s).
  { rewrite R1, R2, Rd. rewrite <- (app_nil_r (raw (opb t))).
    apply lay_extend; auto using HL0; unfold TapeProofs.aO, TapeProofs.aL, TapeProofs.aV.
    - rewrite (good_raw_len Go). lia.
    - lia.
    - lia. }
  destruct (@op_cell_spec (set_val t1 b2) end_of_val (raw (locb t1)) (raw b2) es s)
    as (t' & es' & s' & E & B1 & B2 & B3 & B4 & B5 & B6 & B7 & B8 & B9 & B10 & B11);
    simpl; rewrite ?A1; auto.
  simpl in *.
  exists t1, b2, t', (es' ++ [EVal V]),
    (mkSt (ko s') (S (po s')) (kl s') (S (pl s')) (S (kv s')) 0).
  split; [auto|]. split; [auto|]. split; [auto|]. split; [auto|].
  split; [|split; [|repeat split]]; simpl; try lia.
  - repeat split; simpl; rewrite ?B1, ?B2, ?B5, ?B6, ?B7, ?B8; auto;
      apply B3 || apply G1 || apply G2.
  - rewrite B1, B2. eapply lay_snoc; [eauto|].
    apply s_val; auto; try lia.
    + rewrite B8. apply Gv.
    + rewrite B5, B6, R1, nth_error_app2 by lia. rewrite RLl, Nat.sub_diag.
      simpl. congruence.
  - rewrite ops_of_app. simpl. rewrite app_nil_r. auto.
Qed.

Lemma flush_val_spec t es s : laid t es s ->
  exists t' es' s', flush_val v0 chO chV t = Some t'
    /\ WS t' s' /\ lay (raw (opb t')) (raw (locb t')) (raw (valb t')) es' s0 s'
    /\ 1 <= po s' < capO /\ pl s' <= S (pl s)
    /\ pv s' <= capV - 5 /\ ops_of es' = ops_of es.
Proof.
  intros H. assert (H' := H). destruct H as ((Go & Gl & Gv) & HL & HP & HPl).
  unfold flush_val.
  assert (C : bcap (valb t) = capV) by apply Gv.
  assert (P : bpos (valb t) = pv s) by apply Gv.
  rewrite C, P, gt64_spec by auto.
  destruct (Nat.ltb_spec (capV - 5) (pv s)).
  2:{ exists t, es, s. repeat split; auto; try lia; apply Go || apply Gl || apply Gv. }
  assert (LD : length (bdata (valb t)) = capV) by apply Gv.
  assert (LE : pv s <= capV) by apply Gv.
  destruct (@end_val_spec t es s (blit (bdata (valb t)) (pv s) (repeat v0 (capV - pv s))) H')
    as (t1 & b' & t' & es' & s' & E1 & E2 & E3 & E4 & X1 & X2 & X3 & X4 & X5 & X6).
  { rewrite blit_length; rewrite ?repeat_length; lia. }
  { apply firstn_blit. lia. }
  rewrite E1, E3, E4. exists t', es', s'. repeat split; auto; try lia; apply X1.
Qed.

Lemma put_op_spec t es s c r : laid t es s -> 10 + r <= capL ->
  exists t' es' s', put_op v0 chO chL chV t c r = Some t' /\ WS t' (bump s')
    /\ lay (raw (opb t')) (raw (locb t')) (raw (valb t')) es' s0 s'
    /\ nth_error (raw (opb t')) (aO s') = Some c
    /\ (1 <= po s' /\ S (po s') < capO) /\ pl s' <= capL - (9 + r) /\ pv s' <= capV - 5
    /\ ops_of es' = ops_of es.
Proof.
  intros H Hr. unfold put_op.
  destruct (flush_loc_spec H Hr) as (t1 & es1 & s1 & E1 & L1 & P1 & O1). rewrite E1.
  destruct (flush_val_spec L1) as (t2 & es2 & s2 & E2 & (Go & Gl & Gv) & L2 & P2 & Q2 & R2 & O2).
  rewrite E2.
  destruct (@op_cell_spec t2 c _ _ es2 s2 Go P2 L2)
    as (t' & es' & s' & E & B1 & B2 & B3 & B4 & B5 & B6 & B7 & B8 & B9 & B10 & B11).
  rewrite E. exists t', es', s'. rewrite B1, B2.
  split; [auto|]. split.
  { unfold WS, bump. cbn [ko po kl pl kv pv]. rewrite ?B1, ?B2, ?B5, ?B6, ?B7, ?B8. auto. }
  repeat split; auto; try lia. congruence.
Qed.

Lemma op_cell_valb t c t' : op_cell chO t c = Some t' -> valb t' = @valb V t.
Proof.
  unfold op_cell. destruct (bpos _ =? _).
  - destruct (write_cur _ _); [|discriminate]. destruct (put_block _ _ _); [|discriminate].
    destruct (write_adv _ _); [|discriminate]. destruct (write_adv _ _); [|discriminate].
    intros Q; inversion Q; auto.
  - destruct (write_adv _ _); [|discriminate]. intros Q; inversion Q; auto.
Qed.

(** put_op leaves the value buffer alone if it has room for 5 constants *)
Lemma put_op_keeps_val t es s c r t' : laid t es s -> pv s <= capV - 5 ->
  put_op v0 chO chL chV t c r = Some t' -> valb t' = valb t.
Proof.
  intros ((Go & Gl & Gv) & _) HP. unfold put_op.
  destruct (flush_loc chO chL t r) as [ta|] eqn:Ea; [|discriminate].
  assert (VA : valb ta = valb t).
  { revert Ea. unfold flush_loc. destruct (gt64 _ _); [|intros Q; inversion Q; auto].
    destruct (0 <? _); [|discriminate]. destruct (put_block _ _ _); [|discriminate].
    intros Q. apply op_cell_valb in Q. exact Q. }
  unfold flush_val. rewrite VA.
  assert (C : bcap (valb t) = capV) by apply Gv.
  assert (P : bpos (valb t) = pv s) by apply Gv.
  rewrite C, P, gt64_spec by (auto; lia).
  replace (capV - 5 <? pv s) with false by (symmetry; apply Nat.ltb_ge; lia).
  intros E. apply op_cell_valb in E. congruence.
Qed.

(** recording one operation *)
Lemma record_op_gen t es s opc r ls vs : laid t es s -> special opc = false ->
  10 + r <= capL -> length ls <= 8 + r ->
  length vs <= 5 \/ (pv s <= capV - 5 /\ length vs <= capV - pv s) ->
  exists t' es' s', do_act v0 chO chL chV t (AOp opc r ls vs) = Some t'
    /\ laid t' (es' ++ [EOp (opc, ls, vs)]) s' /\ ops_of es' = ops_of es
    /\ (pv s <= capV - 5 -> pv s' = pv s + length vs)
    /\ pl s' <= capL - (9 + r) + length ls.
Proof.
  intros H Sp Hr Hl Hv. simpl.
  destruct (put_op_spec opc H Hr) as (t1 & es1 & s1 & E1 & (Go & Gl & Gv) & L1 & N1 & P1 & P2 & P3 & O1).
  simpl in *. rewrite E1.
  assert (KV : pv s <= capV - 5 -> pv s1 = pv s).
  { intros Q. pose proof (put_op_keeps_val _ _ H Q E1) as QQ.
    rewrite QQ in Gv. destruct Gv. destruct H as ((_ & _ & [? ? ? ? ? ?]) & _). congruence. }
  assert (VF : pv s1 + length vs <= capV).
  { destruct Hv as [|(Q1 & Q2)]; [lia|]. rewrite (KV Q1). lia. }
  destruct (put_locs_spec ls Gl) as (t2 & E2 & A1 & A2 & G2 & R2); [lia|]. rewrite E2.
  rewrite <- A2 in Gv.
  destruct (put_vals_spec vs t2 Gv) as (t3 & E3 & A3 & A4 & G3 & R3); [lia|]. rewrite E3.
  exists t3, es1, (mkSt (ko s1) (S (po s1)) (kl s1) (pl s1 + length ls) (kv s1) (pv s1 + length vs)).
  split; auto. split; [|split; auto; simpl; split; [|lia]; intros Q; rewrite (KV Q); auto].
  pose proof (good_raw_len Go) as QO. pose proof (good_raw_len Gl) as QL.
  pose proof (good_raw_len Gv) as QV. simpl in *.
  split; [|split; [|simpl; lia]].
  - unfold WS. cbn [ko po kl pl kv pv]. rewrite A3, A4, A1. auto.
  - eapply lay_snoc.
    + rewrite A3, A1, A4, R2, R3, A2. rewrite <- (app_nil_r (raw (opb t1))).
      apply lay_extend; eauto using HL0; unfold TapeProofs.aO, TapeProofs.aL, TapeProofs.aV;
        rewrite ?A2 in *; lia.
    + rewrite A3, A1, A4, R2, R3. apply s_op; auto; try lia.
      * intros i Hi. rewrite nth_error_app2 by lia. f_equal. lia.
      * intros i Hi. rewrite nth_error_app2 by lia. f_equal. lia.
Qed.
Lemma record_op_spec t es s opc r ls vs : laid t es s -> special opc = false ->
  10 + r <= capL -> length ls <= 8 + r -> length vs <= 5 ->
  exists t' es' s', do_act v0 chO chL chV t (AOp opc r ls vs) = Some t'
    /\ laid t' (es' ++ [EOp (opc, ls, vs)]) s' /\ ops_of es' = ops_of es.
Proof.
  intros H1 H2 H3 H4 H5. destruct (@record_op_gen t es s opc r ls vs) as (t' & es' & s' & A & B & C & _); eauto 10.
Qed.

(** ** Patching the last operation *)
Lemma lay_last O L W es o s : lay O L W (es ++ [EOp o]) s0 s ->
  exists s1 opc ls vs, o = (opc, ls, vs) /\ lay O L W es s0 s1
    /\ step O L W (EOp o) s1 s
    /\ ko s = ko s1 /\ po s = S (po s1) /\ kl s = kl s1 /\ pl s = pl s1 + length ls
    /\ kv s = kv s1 /\ pv s = pv s1 + length vs.
Proof.
  intros H. apply lay_split in H. destruct H as (s1 & L1 & L2).
  inversion L2 as [|e es' x y z ST LN]; subst. inversion LN; subst. clear L2 LN.
  pose proof ST as ST'.
  inversion ST; subst. exists s1, opc, ls, vs. simpl. repeat split; auto.
Qed.

Lemma firstn_upd_lt T (l : list T) i v n : i < n -> firstn n (upd l i v) = upd (firstn n l) i v.
Proof.
  revert i n; induction l; intros [|i] [|n] H; simpl; auto; try lia.
  f_equal. apply IHl. lia.
Qed.
Lemma upd_app2 T (a b : list T) i v : upd (a ++ b) (length a + i) v = a ++ upd b i v.
Proof. induction a; simpl; auto. f_equal; auto. Qed.

Lemma upd_data_good T cap (b : buf T) k p i v :
  good cap b k p -> i < p ->
  good cap (set_data b (upd (bdata b) i v)) k p
  /\ raw (set_data b (upd (bdata b) i v)) = upd (raw b) (k * cap + i) v.
Proof.
  intros [? ? ? GL ? ?] H. split.
  - constructor; simpl; rewrite ?upd_length; auto.
  - unfold raw, fcont. cbn -[firstn]. fold (fcont b).
    rewrite firstn_upd_lt by lia. rewrite <- GL. symmetry. apply upd_app2.
Qed.

Lemma good_nth T cap (b : buf T) k p i : good cap b k p -> i < p ->
  nth_error (bdata b) i = nth_error (raw b) (k * cap + i).
Proof.
  intros [? ? ? ? ? ?] H. unfold raw. rewrite nth_error_app2 by lia.
  rewrite nth_firstn. replace (_ - _) with i by lia.
  destruct (Nat.ltb_spec i (bpos b)); auto; lia.
Qed.

Lemma patch_loc t es s opc ls l vs lhs : laid t (es ++ [EOp (opc, ls ++ [l], vs)]) s ->
  0 < pl s /\ nth_error (bdata (locb t)) (pl s - 1) = Some l
  /\ laid (set_loc t (set_data (locb t) (upd (bdata (locb t)) (pl s - 1) lhs)))
          (es ++ [EOp (opc, ls ++ [lhs], vs)]) s.
Proof.
  intros ((Go & Gl & Gv) & HL & HP & HPl).
  pose proof HL as HLL. apply lay_last in HLL.
  destruct HLL as (s1 & opc' & ls' & vs' & E & L1 & S1 & X1 & X2 & X3 & X4 & X5 & X6).
  inversion E; subst opc' ls' vs'; clear E.
  rewrite app_length in X4; simpl in X4.
  assert (P0 : 0 < pl s) by lia.
  assert (PE : pl s - 1 = pl s1 + length ls) by lia.
  assert (H9 : sub_at (raw (locb t)) (kl s1 * capL + pl s1) (ls ++ [l])) by (inversion S1; auto).
  inversion S1; subst. simpl in *.
  assert (N : nth_error (bdata (locb t)) (pl s1 + length (ls ++ [l]) - 1) = Some l).
  { rewrite (good_nth Gl) by (rewrite app_length; simpl; lia).
    replace (_ + (_ - 1)) with (kl s1 * capL + pl s1 + length ls) by lia.
    rewrite H9 by (rewrite app_length; simpl; lia).
    rewrite nth_error_app2 by lia. rewrite Nat.sub_diag. reflexivity. }
  split; [auto|]. split; [auto|].
  edestruct (@upd_data_good _ _ _ _ _ (pl s1 + length (ls ++ [l]) - 1) lhs Gl) as (G2 & R2); [lia|].
  pose proof (good_raw_len Gl) as QL.
  assert (EQ : kl s1 * capL + (pl s1 + length (ls ++ [l]) - 1) = kl s1 * capL + pl s1 + length ls)
    by lia.
  split; [|split; [|simpl; lia]].
  - repeat split; simpl; auto; apply Go || apply G2 || apply Gv.
  - simpl. rewrite R2, EQ.
    assert (U : forall i, nth_error (upd (raw (locb t)) (kl s1 * capL + pl s1 + length ls) lhs) i =
       if i =? kl s1 * capL + pl s1 + length ls then Some lhs else nth_error (raw (locb t)) i).
    { intros i. rewrite nth_upd. destruct (Nat.eqb_spec i (kl s1 * capL + pl s1 + length ls)); auto.
      destruct (Nat.ltb_spec (kl s1 * capL + pl s1 + length ls) (length (raw (locb t)))); auto.
      rewrite app_length in *; simpl in *. lia. }
    eapply lay_snoc.
    + eapply lay_agree; eauto using HL0. intros i Hi. rewrite U.
      unfold TapeProofs.aL in Hi.
      destruct (Nat.eqb_spec i (kl s1 * capL + pl s1 + length ls)); auto; lia.
    + replace (pl s1 + length (ls ++ [l])) with (pl s1 + length (ls ++ [lhs]))
        by (rewrite !app_length; reflexivity).
      apply s_op; auto.
      { rewrite app_length in *; simpl in *; lia. }
      intros i Hi. rewrite U.
      destruct (Nat.eqb_spec (kl s1 * capL + pl s1 + i) (kl s1 * capL + pl s1 + length ls)).
      * assert (i = length ls) by lia. subst i.
        rewrite nth_error_app2 by lia. rewrite Nat.sub_diag. reflexivity.
      * rewrite app_length in Hi; simpl in Hi.
        rewrite H9 by (rewrite app_length; simpl; lia).
        rewrite !nth_error_app1 by lia. reflexivity.
Qed.

Arguments patch_loc {t es s opc ls l vs} lhs _.

Lemma patch_op t es s opc ls vs newop : laid t (es ++ [EOp (opc, ls, vs)]) s ->
  special newop = false ->
  nth_error (bdata (opb t)) (po s - 1) = Some opc
  /\ laid (set_op t (set_data (opb t) (upd (bdata (opb t)) (po s - 1) newop)))
          (es ++ [EOp (newop, ls, vs)]) s.
Proof.
  intros ((Go & Gl & Gv) & HL & HP & HPl) Sp.
  pose proof HL as HLL. apply lay_last in HLL.
  destruct HLL as (s1 & opc' & ls' & vs' & E & L1 & S1 & X1 & X2 & X3 & X4 & X5 & X6).
  inversion E; subst opc' ls' vs'; clear E.
  inversion S1; subst. simpl in *. rewrite Nat.sub_0_r.
  assert (N : nth_error (bdata (opb t)) (po s1) = Some opc).
  { rewrite (good_nth Go) by lia. auto. }
  split; [auto|].
  edestruct (@upd_data_good _ _ _ _ _ (po s1) newop Go) as (G2 & R2); [lia|].
  pose proof (good_raw_len Go) as QO.
  split; [|split; [|simpl; lia]].
  - repeat split; simpl; auto; apply G2 || apply Gl || apply Gv.
  - simpl. rewrite R2.
    eapply lay_snoc.
    + eapply lay_agree; eauto using HL0. intros i Hi.
      unfold TapeProofs.aO in Hi. rewrite nth_upd.
      destruct (Nat.eqb_spec i (ko s1 * capO + po s1)); auto; lia.
    + apply s_op; auto. rewrite nth_upd, Nat.eqb_refl.
      destruct (Nat.ltb_spec (ko s1 * capO + po s1) (length (raw (opb t)))); auto; lia.
Qed.

Arguments patch_op {t es s opc ls vs} newop _ _.

(** ** All recording actions.
    [last_ok]: the newest event is the last recorded operation (or the trace is
    still empty), and a multiplication has exactly three locations. *)
Definition last_ok (es : list (ev V)) : Prop :=
  (exists es' o, es = es' ++ [EOp o] /\ (fst (fst o) = mult_a_a -> length (snd (fst o)) = 3))
  \/ es = [EStart V].

Lemma rename_res_snoc temp lhs opc ls l (vs : list V) :
  rename_res temp lhs (opc, ls ++ [l], vs) =
    if l =? temp then (opc, ls ++ [lhs], vs) else (opc, ls ++ [l], vs).
Proof.
  unfold rename_res. rewrite rev_app_distr. simpl. destruct (l =? temp); auto.
  rewrite rev_involutive. reflexivity.
Qed.
Lemma with_last_snoc (ops : list (oper V)) o f : with_last (ops ++ [o]) f = ops ++ [f o].
Proof. unfold with_last. rewrite rev_app_distr. simpl. rewrite rev_involutive. reflexivity. Qed.

Lemma do_act_spec t es s a : laid t es s -> last_ok es -> act_ok capL (ops_of es) a ->
  exists t' es' s', do_act v0 chO chL chV t a = Some t' /\ laid t' es' s' /\ last_ok es'
    /\ ops_of es' = spec_act (ops_of es) a.
Proof.
  intros H HLok Hok. destruct a; simpl in Hok.
  - destruct Hok as (Sp & A1 & A2 & A3 & A4).
    destruct (@record_op_spec t es s opc reserve locs vals H Sp A3 A1 A2) as (t' & es' & s' & E & L & O).
    exists t', (es' ++ [EOp (opc, locs, vals)]), s'. split; [exact E|]. split; auto. split.
    + left. exists es', (opc, locs, vals). auto.
    + rewrite ops_of_app, O. reflexivity.
  - destruct Hok as (ops' & opc & ls & l & vs & E & HM).
    destruct HLok as [(es' & o & -> & Ho)| -> ]; [|simpl in E; destruct ops'; discriminate].
    rewrite ops_of_app in *. simpl in E. apply app_inj_tail in E. destruct E as (E & ->).
    destruct (patch_loc lhs H) as (P0 & N & L').
    simpl. rewrite with_last_snoc, rename_res_snoc. unfold upd_resloc.
    assert (PP : bpos (locb t) = pl s) by apply H. rewrite PP.
    destruct (pl s) as [|p] eqn:Ep; [lia|]. replace (S p - 1) with p in * by lia.
    rewrite N. destruct (l =? temp); simpl.
    + eexists _, _, s. split; [reflexivity|]. split; [exact L'|]. split.
      * left. eexists _, _; split; [reflexivity|]. simpl in *. intros Q.
        specialize (Ho Q). rewrite app_length in *. auto.
      * rewrite ops_of_app. reflexivity.
    + exists t, (es' ++ [EOp (opc, ls ++ [l], vs)]), s. split; auto. split; auto. split; auto.
      * left. eauto.
      * rewrite ops_of_app; reflexivity.
  - destruct Hok as (Sp & NM). simpl.
    destruct HLok as [(es' & o & -> & Ho)| -> ].
    2:{ (* nothing recorded yet: the last opcode is start_of_tape *)
      exists t, [EStart V], s. simpl. unfold with_last. simpl. split; [|split; [auto|split; [right; auto|auto]]].
      f_equal. unfold upd_resloc_inc_prod.
      destruct H as ((Go & Gl & Gv) & HL & HP & HPl).
      assert (PO : bpos (opb t) = po s) by apply Go.
      rewrite PO. destruct (bpos (locb t) <? 3); auto. destruct (po s <? 1); auto.
      assert (N : nth_error (bdata (opb t)) (po s - 1) = Some start_of_tape).
      { rewrite (good_nth Go) by lia.
        inversion HL as [|e es' x y z ST LN]; subst. inversion LN; subst. inversion ST; subst. simpl in *. auto. }
      rewrite N. change (mult_a_a =? start_of_tape) with false.
      repeat match goal with |- context [match nth_error ?a ?b with _ => _ end] =>
        destruct (nth_error a b) end; auto.
      rewrite andb_false_r. reflexivity. }
    destruct o as ((opc & ls) & vs). simpl in Ho.
    rewrite ops_of_app. simpl (ops_of [_]). rewrite with_last_snoc.
    destruct (patch_op newop H Sp) as (NO & _).
    assert (PL : bpos (locb t) = pl s) by apply H.
    assert (PO : bpos (opb t) = po s) by apply H.
    destruct (Nat.eqb_spec opc mult_a_a) as [E|NE].
    + specialize (Ho E).
      destruct ls as [|a [|b [|c [|]]]]; try discriminate.
      destruct (@patch_loc t es' s opc [a; b] c vs lhs H) as (P0 & N1 & L').
      pose proof (patch_op newop L' Sp) as (_ & L'').
      assert (Q : lay (raw (opb t)) (raw (locb t)) (raw (valb t)) (es' ++ [EOp (opc, [a; b; c], vs)]) s0 s)
        by apply H.
      apply lay_last in Q.
      destruct Q as (s1 & opc' & ls' & vs' & E' & L1 & S1 & X1 & X2 & X3 & X4 & X5 & X6).
      inversion E'; subst opc' ls' vs'; clear E'. simpl in X4.
      assert (Gl : good capL (locb t) (kl s) (pl s)) by apply H.
      assert (SA : sub_at (raw (locb t)) (kl s1 * capL + pl s1) [a; b; c]).
      { inversion S1; auto. }
      assert (N2 : nth_error (bdata (locb t)) (pl s - 2) = Some b).
      { rewrite (good_nth Gl) by lia. pose proof (SA 1 ltac:(simpl; lia)) as Z. simpl in Z.
        rewrite <- Z. f_equal. rewrite X3. lia. }
      assert (N3 : nth_error (bdata (locb t)) (pl s - 3) = Some a).
      { rewrite (good_nth Gl) by lia. pose proof (SA 0 ltac:(simpl; lia)) as Z. simpl in Z.
        rewrite <- Z. f_equal. rewrite X3. lia. }
      unfold upd_resloc_inc_prod. rewrite PL, PO.
      destruct (Nat.ltb_spec (pl s) 3); [lia|].
      destruct (Nat.ltb_spec (po s) 1); [lia|].
      rewrite N1, N2, N3, NO. subst opc. unfold fuse_prod. rewrite Nat.eqb_refl.
      rewrite (Nat.eqb_sym temp c), (andb_comm true), !andb_true_r.
      destruct (c =? temp); simpl.
      * destruct (lhs =? b), (lhs =? a); simpl;
          try (exists t, (es' ++ [EOp (mult_a_a, [a; b; c], vs)]), s; repeat split; auto;
               try apply H; [left; eauto|rewrite ops_of_app; reflexivity]).
        eexists _, (es' ++ [EOp (newop, [a; b; lhs], vs)]), s.
        split; [reflexivity|]. split; [|split].
        -- exact L''.
        -- left. eexists _, _; split; [reflexivity|]. simpl. intros; congruence.
        -- rewrite ops_of_app; reflexivity.
      * exists t, (es' ++ [EOp (mult_a_a, [a; b; c], vs)]), s; repeat split; auto;
               try apply H; [left; eauto|rewrite ops_of_app; reflexivity].
    + exists t, (es' ++ [EOp (opc, ls, vs)]), s. split; [|split; [auto|split]].
      * f_equal. unfold upd_resloc_inc_prod. rewrite PO, NO.
        destruct (_ <? 3); auto. destruct (_ <? 1); auto.
        repeat match goal with |- context [match nth_error ?a ?b with _ => _ end] =>
          destruct (nth_error a b) end; auto.
        destruct (Nat.eqb_spec mult_a_a opc); [congruence|].
        rewrite andb_false_r. reflexivity.
      * left. eauto.
      * rewrite ops_of_app. simpl. f_equal. unfold fuse_prod.
        destruct (Nat.eqb_spec opc mult_a_a); [congruence|].
        destruct ls as [|? [|? [|? [|]]]]; auto.
Qed.

Lemma do_acts_spec l : forall t es s, laid t es s -> last_ok es -> acts_ok capL (ops_of es) l ->
  exists t' es' s', do_acts v0 chO chL chV t l = Some t' /\ laid t' es' s' /\ last_ok es'
    /\ ops_of es' = spec_acts (ops_of es) l.
Proof.
  induction l; simpl; intros t es s H1 H2 H3.
  - exists t, es, s. auto.
  - destruct H3 as (A & B).
    destruct (@do_act_spec t es s a H1 H2 A) as (t1 & es1 & s1 & E1 & L1 & K1 & O1). rewrite E1.
    rewrite <- O1 in B. destruct (IHl _ _ _ L1 K1 B) as (t2 & es2 & s2 & E2 & L2 & K2 & O2).
    exists t2, es2, s2. split; auto. split; auto. split; auto.
    rewrite O2, O1. reflexivity.
Qed.

(** ** start_trace and take_stock *)
Lemma start_trace_spec dO dL dV :
  length dO = capO -> length dL = capL -> length dV = capV ->
  exists t, start_trace v0 chO chL chV dO dL dV = Some t
    /\ laid t [EStart V] (mkSt 0 1 0 statSpace 0 0).
Proof.
  intros LO LL LV. unfold start_trace, put_op, flush_loc, flush_val.
  cbn [opb locb valb bpos bcap bdata].
  unfold bcap at 1 2. cbn [bdata]. rewrite LL.
  unfold maxLocsPerOp. rewrite gt64_spec by (auto; unfold statSpace in *; lia).
  replace (capL - (10 + 0) <? 0) with false by (symmetry; apply Nat.ltb_ge; lia).
  cbn [opb locb valb bpos bcap bdata].
  unfold bcap at 1. cbn [bdata]. rewrite LV.
  rewrite gt64_spec by (auto; lia).
  replace (capV - 5 <? 0) with false by (symmetry; apply Nat.ltb_ge; lia).
  unfold op_cell. cbn [opb locb valb bpos bcap bdata]. unfold bcap. cbn [bdata].
  rewrite LO. destruct (Nat.eqb_spec 0 (capO - 1)); [lia|].
  assert (Go : good capO (mkBuf dO 0 0 None 0) 0 0) by (constructor; simpl; auto; try tauto; lia).
  assert (Gl : good capL (mkBuf dL 0 0 None 0) 0 0) by (constructor; simpl; auto; try tauto; lia).
  assert (Gv : good capV (mkBuf dV 0 0 None 0) 0 0) by (constructor; simpl; auto; try tauto; lia).
  destruct (write_adv_good start_of_tape Go) as (b1 & E1 & G1 & R1); [lia|]. rewrite E1.
  set (t := set_op _ b1).
  assert (GL' : good capL (locb t) 0 0) by exact Gl.
  destruct (put_locs_spec (repeat 0 statSpace) GL') as (t2 & E2 & A1 & A2 & G2 & R2).
  { rewrite repeat_length. lia. }
  exists t2. split; auto. rewrite repeat_length in G2.
  split; [|split; [|simpl; lia]].
  - repeat split; simpl; rewrite ?A1, ?A2; auto; apply G1 || apply G2 || apply Gv.
  - econstructor; [|constructor].
    change (mkSt 0 1 0 statSpace 0 0) with (mkSt (ko s0) (S (po s0)) (kl s0) (pl s0) (kv s0) (pv s0)).
    apply s_start; simpl; auto. rewrite A1. simpl. rewrite R1. reflexivity.
Qed.

Lemma get_val_space_spec t es s : laid t es s -> pl s <= capL - 2 \/ pv s <= capV - 5 ->
  exists t' es' s', get_val_space chO chV t = Some (t', capV - pv s') /\ laid t' es' s'
    /\ pv s' <= capV - 5 /\ ops_of es' = ops_of es /\
    (pv s <= capV - 5 -> es' = es).
Proof.
  intros H Hpl. assert (H' := H). destruct H as ((Go & Gl & Gv) & HL & HP & HPl).
  unfold get_val_space.
  assert (C : bcap (valb t) = capV) by apply Gv.
  assert (P : bpos (valb t) = pv s) by apply Gv.
  rewrite C, P, gt64_spec by auto.
  destruct (Nat.ltb_spec (capV - 5) (pv s)).
  2:{ exists t, es, s. rewrite C, P. repeat split; auto; try lia; apply Go || apply Gl || apply Gv. }
  destruct (@end_val_spec t es s (bdata (valb t)) H')
    as (t1 & b' & t' & es' & s' & E1 & E2 & E3 & E4 & X1 & X2 & X3 & X4 & X5 & X6); auto.
  replace (set_data (valb t) (bdata (valb t))) with (valb t) in E3 by (destruct (valb t); auto).
  rewrite E1, E3, E4. exists t', es', s'.
  replace (bcap (valb t')) with capV by (symmetry; apply X1).
  replace (bpos (valb t')) with (pv s') by (symmetry; apply X1).
  unfold statSpace in HL1.
  repeat split; auto; try lia; apply X1.
Qed.

Lemma ops_stock_app loc p q :
  @stock_ops V loc (p ++ q) = stock_ops loc p ++ stock_ops (loc + length (concat p)) q.
Proof.
  revert loc; induction p; simpl; intros.
  - f_equal; lia.
  - rewrite IHp. f_equal. f_equal. f_equal. rewrite app_length. lia.
Qed.

Lemma take_stock_loop_spec fuel : forall t es s loc vals,
  laid t es s -> pv s <= capV - 5 -> length vals < fuel ->
  (vals = [] -> last_ok es) ->
  exists t' es' s' pieces, take_stock_loop v0 chO chL chV fuel t (capV - pv s) loc vals = Some t'
    /\ laid t' es' s' /\ last_ok es'
    /\ concat pieces = vals /\ (forall p, In p pieces -> p <> [])
    /\ ops_of es' = ops_of es ++ stock_ops loc pieces.
Proof.
  induction fuel; simpl; intros t es s loc vals H HP HF HE; [lia|].
  assert (Gv : good capV (valb t) (kv s) (pv s)) by apply H.
  destruct (Nat.ltb_spec (capV - pv s) (length vals)).
  - set (piece := firstn (capV - pv s) vals).
    assert (LP : length piece = capV - pv s) by (unfold piece; rewrite firstn_length; lia).
    destruct (@record_op_gen t es s take_stock_op 0 [capV - pv s; loc] piece)
      as (t4 & es1 & s4 & E & H4 & O1 & KP & KL); auto.
    { unfold statSpace in *; lia. }
    { simpl; lia. }
    { right. lia. }
    simpl in KL. specialize (KP HP).
    simpl in E. unfold put_vals_writeBlock.
    destruct (put_op v0 chO chL chV t take_stock_op 0) as [t1|]; [|discriminate].
    destruct (put_loc t1 (capV - pv s)) as [t2|]; [|discriminate].
    destruct (put_loc t2 loc) as [t3|]; [|discriminate].
    rewrite E.
    assert (G4 : good capV (valb t4) (kv s4) (pv s4)) by apply H4.
    assert (C4 : bcap (valb t4) = capV) by apply G4.
    assert (P4 : bpos (valb t4) = pv s4) by apply G4.
    destruct (@end_val_spec t4 _ s4 (bdata (valb t4)) H4)
      as (t5 & b5 & t6 & es6 & s6 & F1 & F2 & F3 & F4 & X1 & X2 & X3 & X4 & X5 & X6); auto.
    replace (set_data (valb t4) (bdata (valb t4))) with (valb t4) in F3 by (destruct (valb t4); auto).
    rewrite C4, P4, F1. rewrite F2, C4, F3, F4.
    assert (H6 : laid t6 es6 s6).
    { split; auto. split; auto. split; auto. rewrite X4. unfold statSpace in *. lia. }
    destruct (@get_val_space_spec t6 es6 s6 H6) as (t7 & es7 & s7 & E7 & L7 & P7 & O7 & Q7).
    { rewrite X4. unfold statSpace in *. lia. }
    rewrite E7.
    assert (NE : skipn (capV - pv s) vals <> []).
    { intros Q. apply (f_equal (@length _)) in Q. rewrite skipn_length in Q. simpl in Q. lia. }
    destruct (IHfuel t7 es7 s7 (loc + (capV - pv s)) (skipn (capV - pv s) vals))
      as (t8 & es8 & s8 & pieces & E8 & L8 & K8 & C8 & N8 & O8); auto.
    { rewrite skipn_length. lia. }
    { intros; contradiction. }
    exists t8, es8, s8, (piece :: pieces). split; [exact E8|]. split; auto. split; auto.
    split. { simpl. rewrite C8. apply firstn_skipn. }
    split. { intros p [<-|Hp]; auto. intros Q. rewrite Q in LP. simpl in LP. lia. }
    rewrite O8, O7, X6, ops_of_app, O1. simpl. rewrite LP, <- app_assoc. reflexivity.
  - destruct vals as [|v vals].
    + simpl. exists t, es, s, []. simpl. rewrite app_nil_r.
      repeat (split; auto); try apply H; intros ? [].
    + set (vv := v :: vals) in *.
      replace (0 <? length vv) with true by reflexivity.
      destruct (@record_op_gen t es s take_stock_op 0 [length vv; loc] vv)
        as (t4 & es1 & s4 & E & H4 & O1 & KP & KL); auto.
      { unfold statSpace in *; lia. }
      { simpl; lia. }
      simpl in E.
      destruct (put_op v0 chO chL chV t take_stock_op 0) as [t1|]; [|discriminate].
      change (S (length vals)) with (length vv) in E.
      destruct (put_loc t1 (length vv)) as [t2|]; [|discriminate].
      destruct (put_loc t2 loc) as [t3|]; [|discriminate].
      exists t4, (es1 ++ [EOp (take_stock_op, [length vv; loc], vv)]), s4, [vv].
      split; [exact E|]. split; auto. split.
      { left. eexists _, _. split; [reflexivity|]. discriminate. }
      split. { apply (app_nil_r vv). }
      split. { intros p [<-|[]]. discriminate. }
      rewrite ops_of_app, O1. reflexivity.
Qed.

Lemma take_stock_spec t nl store :
  laid t [EStart V] (mkSt 0 1 0 statSpace 0 0) ->
  exists t' es' s' pieces, take_stock v0 chO chL chV t nl store = Some t'
    /\ laid t' es' s' /\ last_ok es'
    /\ concat pieces = (if nl =? 0 then [] else store) /\ (forall p, In p pieces -> p <> [])
    /\ ops_of es' = stock_ops 0 pieces.
Proof.
  intros H. unfold take_stock.
  destruct (get_val_space_spec H) as (t1 & es1 & s1 & E1 & L1 & P1 & O1 & Q1).
  { right. simpl. lia. }
  rewrite E1. assert (Q : es1 = [EStart V]) by (apply Q1; simpl; lia). subst es1.
  destruct nl as [|nl]; simpl.
  - exists t1, [EStart V], s1, []. simpl. repeat split; auto; try apply L1; try tauto. right; auto.
  - destruct (@take_stock_loop_spec (S (length store)) t1 [EStart V] s1 0 store)
      as (t' & es' & s' & pieces & E & L & K & C & N & O); auto.
    { intros; right; auto. }
    exists t', es', s', pieces. repeat split; auto; apply L.
Qed.

Ltac csplit := repeat match goal with |- _ /\ _ => split end.

(** ** A finished trace *)
Record closed (t : tape V) (sts : stats) (O L : list nat) (W : list V)
    (es : list (ev V)) (e : st) : Prop := {
  cl_o : closed_stream capO (opb t) (st_op sts) O;
  cl_l : closed_stream capL (locb t) (st_loc sts) L;
  cl_v : closed_stream capV (valb t) (st_val sts) W;
  cl_lay : lay O L W es s0 e;
  cl_end : nth_error O (aO e) = Some end_of_tape;
  cl_no : length O = S (aO e);
  cl_nl : length L = aL e;
  cl_nv : length W = aV e + n_param sts;
  cl_po : S (po e) < capO;
  cl_po1 : 1 <= po e;
  cl_pl : pl e < capL;
  cl_pv : pv e <= capV - 5;
  cl_ao : s_acc (st_op sts) = false -> ko e = 0;
  cl_al : s_acc (st_loc sts) = false -> kl e = 0;
  cl_av : s_acc (st_val sts) = false -> kv e = 0 }.

Lemma save_params_spec (t : tape V) k p ps : good capV (valb t) k p -> p <= capV - 5 ->
  length ps <= capV ->
  exists t' k' p', save_params chV t ps = Some t' /\ opb t' = opb t /\ locb t' = locb t
    /\ good capV (valb t') k' p' /\ raw (valb t') = raw (valb t) ++ ps /\ k <= k'.
Proof.
  intros G HP HN. unfold save_params.
  assert (C : bcap (valb t) = capV) by apply G.
  assert (P : bpos (valb t) = p) by apply G.
  rewrite C, P, sub64_small by auto.
  destruct (Z.ltb_spec (Z.of_nat p) (Z.of_nat (capV - length ps))).
  - destruct (put_vals_spec ps t G) as (t' & E & A1 & A2 & G' & R); [lia|].
    exists t', k, (p + length ps). csplit; auto.
  - cbn [save_params_loop].
    destruct (Nat.ltb_spec 0 (length ps)).
    2:{ exists t, k, p. destruct ps; [|simpl in *; lia]. rewrite app_nil_r. csplit; auto. }
    rewrite C, P.
    destruct (Nat.ltb_spec (capV - p) (length ps)).
    + destruct (put_vals_spec (firstn (capV - p) ps) t G) as (t' & E & A1 & A2 & G' & R).
      { rewrite firstn_length. lia. }
      rewrite E. rewrite firstn_length in G'. rewrite skipn_length.
      destruct (Nat.ltb_spec 0 (length ps - (capV - p))); [|lia].
      destruct (put_block_good G' HV2) as (b' & E' & G2 & R2 & D2); [lia|].
      rewrite E'.
      destruct (length ps) eqn:EL; [lia|]. cbn [save_params_loop].
      rewrite skipn_length, EL.
      destruct (Nat.ltb_spec 0 (S n - (capV - p))); [|lia].
      assert (C2 : bcap (valb (set_val t' b')) = capV) by apply G2.
      assert (P2 : bpos (valb (set_val t' b')) = 0) by apply G2.
      rewrite C2, P2, Nat.sub_0_r.
      destruct (Nat.ltb_spec capV (S n - (capV - p))); [lia|].
      rewrite firstn_all2 by (rewrite skipn_length; lia).
      rewrite (skipn_all2 (n := S n - (capV - p))) by (rewrite skipn_length; lia).
      destruct (put_vals_spec (skipn (capV - p) ps) (set_val t' b') G2) as (t3 & E3 & A3 & A4 & G3 & R3).
      { rewrite skipn_length. lia. }
      rewrite E3. cbn [length Nat.ltb Nat.leb].
      assert (FU : exists f, n = S f) by (destruct n; [lia|eauto]). destruct FU as (f & ->).
      cbn. exists t3, (S k), (0 + length (skipn (capV - p) ps)).
      split; auto. split; [simpl in *; congruence|]. split; [simpl in *; congruence|]. split; auto.
      split; [|lia]. rewrite R3. simpl. rewrite R2, R.
      assert (length (bdata (valb t')) = capV) by apply G'.
      rewrite skipn_all2 by lia. rewrite app_nil_r, <- app_assoc, firstn_skipn. reflexivity.
    + rewrite firstn_all. rewrite skipn_all.
      destruct (put_vals_spec ps t G) as (t' & E & A1 & A2 & G' & R); [lia|].
      rewrite E. destruct (length ps) eqn:EL; [lia|]. cbn.
      exists t', k, (p + S n). csplit; auto.
Qed.

Lemma stop_trace_spec t es s ps flag hdr : laid t es s -> length ps <= capV ->
  length hdr <= statSpace ->
  exists t' sts O L W es' e, stop_trace v0 chO chL chV t ps flag hdr = Some (t', sts)
    /\ closed t' sts O L W es' e /\ ops_of es' = ops_of es /\ n_param sts = length ps
    /\ (exists P, W = P ++ ps) /\ (flag = true -> s_acc (st_op sts) = true /\ s_acc (st_loc sts) = true /\ s_acc (st_val sts) = true).
Proof.
  intros H HN HH. unfold stop_trace.
  destruct (@put_op_spec t es s end_of_tape 0 H) as (t1 & es1 & s1 & E1 & (Go & Gl & Gv) & L1 & N1 & P1 & P2 & P3 & O1).
  { unfold statSpace in *; lia. }
  rewrite E1. simpl in Go, Gl, Gv.
  destruct (@save_params_spec t1 _ _ ps Gv P3 HN) as (t2 & k' & p' & E2 & A1 & A2 & G2 & R2 & K2).
  rewrite E2, A1, A2.
  destruct (@close_stream_spec _ chO capO flag _ _ _ Go) as (o & so & Eo & Co & Ao); auto; [lia|].
  rewrite Eo.
  destruct (@close_stream_spec _ chV capV flag _ _ _ G2) as (v & sv & Ev & Cv & Av); auto; [lia|].
  rewrite Ev.
  destruct (@close_stream_spec _ chL capL flag _ _ _ Gl) as (l & sl & El & Cl & Al); auto; [lia|].
  rewrite El.
  pose proof (good_raw_len Go) as QO. pose proof (good_raw_len Gl) as QL.
  pose proof (good_raw_len Gv) as QV.
  assert (MM : aL s0 <= aL s1) by (apply (lay_mono HO1 HL0 L1)).
  unfold TapeProofs.aL in MM. simpl in MM.
  set (Lf := if s_acc sl then blit (raw (locb t1)) 0 hdr else raw (locb t1)).
  assert (LLf : length Lf = length (raw (locb t1))).
  { unfold Lf. destruct (s_acc sl); auto. apply blit_length. simpl in *. lia. }
  eexists _, _, (raw (opb t1)), Lf, (raw (valb t2)), es1, s1.
  split; [reflexivity|]. split; [|split; [auto|split; [reflexivity|split; [eauto|]]]].
  2: { intros ->. cbn [st_op st_loc st_val]. rewrite Ao, Al, Av. auto. }
  constructor; simpl; auto; try lia.
  - unfold Lf, write_header. destruct Cl as [c1 c2 c3 c4 c5]. destruct (s_acc sl) eqn:EA; [|constructor; auto; congruence].
    constructor; simpl; auto; try congruence.
    + fold Lf in LLf. rewrite blit_length by (simpl in *; lia). auto.
    + intros _. destruct (c4 eq_refl) as [X|(X & Y)]; rewrite X; auto.
      rewrite Y in QL. cbn [length] in QL. unfold statSpace in MM. lia.
  - rewrite R2. rewrite <- (app_nil_r (raw (opb t1))).
    replace Lf with (Lf ++ []) by apply app_nil_r.
    apply lay_extend; auto using HL0; unfold TapeProofs.aO, TapeProofs.aL, TapeProofs.aV; try lia.
    eapply lay_agree; eauto using HL0.
    intros i Hi. unfold Lf. destruct (s_acc sl); auto.
    rewrite nth_blit by (simpl in *; lia).
    unfold TapeProofs.aL in Hi. simpl in Hi.
    replace (i <? 0 + length hdr) with false; [rewrite andb_false_r; auto|].
    symmetry. apply Nat.ltb_ge. simpl. lia.
  - rewrite QO. unfold TapeProofs.aO. lia.
  - unfold TapeProofs.aL. lia.
  - rewrite R2, app_length, QV. unfold TapeProofs.aV. lia.
  - rewrite Ao. intros X. apply orb_false_iff in X. destruct X as (_ & X).
    apply negb_false_iff, Nat.eqb_eq in X. auto.
  - rewrite Al. intros X. apply orb_false_iff in X. destruct X as (_ & X).
    apply negb_false_iff, Nat.eqb_eq in X. auto.
  - rewrite Av. intros X. apply orb_false_iff in X. destruct X as (_ & X).
    apply negb_false_iff, Nat.eqb_eq in X. lia.
Qed.

End Writer.
