(** * Proofs about trace_on / trace_off. *)
From Coq Require Import List ZArith Bool Lia Arith.
From Verif Require Import MgrModel MgrSpec.
Import ListNotations.
Set Implicit Arguments.

Section Proofs.
Variable E : Type.
Variable dflt : sizes.
Implicit Types (s : mgr E) (t : vtape E).

Lemma upd_len s k f : length (tapes (upd_tape s k f)) = length (tapes s).
Proof. unfold upd_tape. cbn. rewrite map_length, combine_length, seq_length. lia. Qed.

Lemma nth_map_combine (l : list (vtape E)) k f : forall a i,
  nth_error (map (fun p => if (fst p =? k)%nat then f (snd p) else snd p) (combine (seq a (length l)) l)) i =
  match nth_error l i with Some t => Some (if (a + i =? k)%nat then f t else t) | None => None end.
Proof.
  induction l as [|t l IH]; intros a i; cbn.
  - destruct i; reflexivity.
  - destruct i as [|i]; cbn.
    + now rewrite Nat.add_0_r.
    + rewrite IH. now rewrite <- plus_n_Sm.
Qed.
Lemma upd_nth s k f i :
  nth_error (tapes (upd_tape s k f)) i =
  match nth_error (tapes s) i with Some t => Some (if (i =? k)%nat then f t else t) | None => None end.
Proof. unfold upd_tape. cbn [tapes]. apply (nth_map_combine (tapes s) k f 0 i). Qed.

Lemma upd_ids s k f : (forall t, t_id (f t) = t_id t) -> ids (upd_tape s k f) = ids s.
Proof.
  intros H. unfold ids. apply nth_ext with (d := 0%Z) (d' := 0%Z).
  - now rewrite !map_length, upd_len.
  - intros n Hn. rewrite map_length, upd_len in Hn.
    pose proof (upd_nth s k f n) as U.
    destruct (nth_error (tapes s) n) as [t|] eqn:N; [|apply nth_error_None in N; lia].
    assert (A : nth_error (map (@t_id E) (tapes (upd_tape s k f))) n = nth_error (map (@t_id E) (tapes s)) n).
    { rewrite !nth_error_map, U, N. cbn. destruct (n =? k)%nat; [now rewrite H|reflexivity]. }
    rewrite !nth_error_map, U, N in A. cbn in A.
    rewrite (nth_error_nth (map (@t_id E) (tapes (upd_tape s k f))) n 0%Z (x := t_id (if (n =? k)%nat then f t else t))).
    2:{ rewrite nth_error_map, U. reflexivity. }
    rewrite (nth_error_nth (map (@t_id E) (tapes s)) n 0%Z (x := t_id t)).
    2:{ rewrite nth_error_map, N. reflexivity. }
    inversion A. auto.
Qed.

Lemma find_from_spec (l : list (vtape E)) id : forall i k, find_from i l id = Some k ->
  exists j t, k = i + j /\ nth_error l j = Some t /\ t_id t = id.
Proof.
  induction l as [|t l IH]; intros i k H; cbn in H; [discriminate|].
  destruct (Z.eqb_spec (t_id t) id).
  - inversion H; subst. exists 0, t. repeat split. lia.
  - destruct (IH _ _ H) as (j & t' & A & B & C). exists (S j), t'. repeat split; auto. lia.
Qed.
Lemma find_from_in (l : list (vtape E)) id : forall i, In id (map (@t_id E) l) ->
  exists k, find_from i l id = Some k.
Proof.
  induction l as [|t l IH]; intros i H; cbn in *; [tauto|].
  destruct (Z.eqb_spec (t_id t) id); eauto. destruct H; [congruence|]. apply IH. auto.
Qed.
Lemma find_in s id : In id (ids s) ->
  exists k t, find_tape s id = Some k /\ nth_error (tapes s) k = Some t /\ t_id t = id.
Proof.
  intros H. destruct (find_from_in (tapes s) id 0 H) as (k & F).
  destruct (find_from_spec _ _ _ F) as (j & t & A & B & C). cbn in A. subst j.
  exists k, t. auto.
Qed.

Lemma ids_inj s i j t t' : NoDup (ids s) -> nth_error (tapes s) i = Some t -> nth_error (tapes s) j = Some t' ->
  t_id t = t_id t' -> i = j.
Proof.
  intros N A B C. unfold ids in N. rewrite NoDup_nth_error in N. apply N.
  - rewrite map_length. apply nth_error_Some. congruence.
  - rewrite !nth_error_map, A, B. cbn. congruence.
Qed.

Record Inv (s : mgr E) (env : traces E) (open : list Z) (d : list E) : Prop := {
  i_nd : NoDup (ids s);
  i_tape : forall k t, nth_error (tapes s) k = Some t ->
     t_done t = env (t_id t) /\
     (In (t_id t) open -> t_mode t = WriteAccess /\ t_alloc t = true) /\
     (~ In (t_id t) open -> t_mode t = NoMode);
  i_cur : exists k t, cur s = Some k /\ nth_error (tapes s) k = Some t /\
     (In (t_id t) open -> t_log t = d) }.

(** the other tapes keep what they have recorded *)
Definition frame (s s' : mgr E) (c : nat) (open : list Z) : Prop :=
  forall k t, nth_error (tapes s) k = Some t -> k <> c -> In (t_id t) open ->
    exists t', nth_error (tapes s') k = Some t' /\ t_log t' = t_log t.

Lemma run_app cs1 : forall s cs2 o, run dflt s (cs1 ++ cs2) o =
  match run dflt s cs1 o with Some (s', o') => run dflt s' cs2 o' | None => None end.
Proof.
  induction cs1 as [|c cs1 IH]; intros s cs2 o; cbn [run app]; auto.
  destruct (step dflt s c); auto.
Qed.

Definition ext (env env' : traces E) := forall i, env i = env' i.

Lemma Inv_ext s env env' open d : Inv s env open d -> ext env env' -> Inv s env' open d.
Proof.
  intros [A B C] H. constructor; auto. intros k t Hk. destruct (B k t Hk) as (B1 & B2 & B3).
  rewrite <- H. auto.
Qed.

Lemma run_prog p : forall s env open d o, Inv s env open d -> legal (ids s) open p ->
  exists s', 
    let '(env', d', o') := meaning p env d o in
    run dflt s (calls p) o = Some (s', o') /\ Inv s' env' open d' /\
    cur s' = cur s /\ stack s' = stack s /\ ids s' = ids s /\ counter s' = counter s /\
    (forall c, cur s = Some c -> frame s s' c open).
Proof.
  induction p as [|e p IH|id p IH|id fl b IHb p IHp]; intros s env open d o I L; cbn [calls meaning legal] in *.
  - exists s. cbn [run]. do 6 (split; [first [assumption|reflexivity|congruence|cbn in *; congruence]|]).
    intros c _ k t Hk _ _. eauto.
  - (* an operation *)
    destruct I as [I1 I2 (k & t & I3 & I4 & I5)].
    cbn [run step]. unfold event. rewrite I3, I4.
    destruct (in_dec Z.eq_dec (t_id t) open) as [O|O].
    + destruct (I2 k t I4) as (B1 & B2 & B3). destruct (B2 O) as [B4 B5]. rewrite B4, B5.
      set (f := fun t : vtape E => mkTape (t_id t) (t_mode t) (t_log t ++ [e]) (t_done t) (t_alloc t) (t_sizes t)).
      destruct (IH (upd_tape s k f) env open (d ++ [e]) o) as (s' & H).
      * constructor.
        -- rewrite upd_ids by reflexivity. auto.
        -- intros i t' Hi. rewrite upd_nth in Hi. destruct (nth_error (tapes s) i) as [t0|] eqn:N; [|discriminate].
           destruct (i =? k)%nat; injection Hi as <-; [cbn [f t_id t_mode t_done t_alloc]|]; apply (I2 i t0 N).
        -- exists k, (f t). split; [auto|]. rewrite upd_nth, I4, Nat.eqb_refl. split; [auto|].
           cbn. intros _. now rewrite I5.
      * rewrite upd_ids by reflexivity. auto.
      * exists s'. destruct (meaning p env (d ++ [e]) o) as [[env' d'] o'].
        destruct H as (H1 & H2 & H3 & H4 & H5 & H6 & H7). rewrite upd_ids in H5 by reflexivity.
        do 6 (split; [first [assumption|reflexivity|congruence|cbn in *; congruence]|]).
        intros c Hc i t' Hi Ne Op. try rewrite I3 in Hc. inversion Hc; subst c.
        destruct (H7 k I3 i t') as (t2 & A & B); auto.
        -- rewrite upd_nth, Hi. destruct (Nat.eqb_spec i k); [congruence|]. auto.
        -- eauto.
    + destruct (I2 k t I4) as (B1 & B2 & B3). rewrite (B3 O).
      rewrite <- I3. apply IH; auto. constructor; auto. exists k, t. repeat split; auto. tauto.
  - (* a sweep *)
    destruct L as (L1 & L2 & L3).
    destruct (find_in s id L1) as (k & t & F & N & T).
    pose proof (i_tape I k N) as (B1 & B2 & B3). rewrite T in *.
    cbn [run step]. unfold sweep. rewrite F, N, (B3 L2).
    set (f := fun t : vtape E => mkTape (t_id t) NoMode (t_log t) (t_done t) (t_alloc t) (t_sizes t)).
    destruct (IH (upd_tape s k f) env open d (o ++ [env id])) as (s' & H).
    + destruct I as [I1 I2 (c & tc & I3 & I4 & I5)]. constructor.
      * rewrite upd_ids by reflexivity. auto.
      * intros i t' Hi. rewrite upd_nth in Hi. destruct (nth_error (tapes s) i) as [t0|] eqn:N0; [|discriminate].
        destruct (Nat.eqb_spec i k) as [->|]; injection Hi as <-; [|apply (I2 i t0 N0)].
        rewrite N in N0. inversion N0; subst t0. cbn [f t_id t_mode t_done t_alloc].
        destruct (I2 k t N) as (C1 & C2 & C3). split; [auto|]. split; [|auto]. intros Q. rewrite T in Q. contradiction.
      * exists c, (if (c =? k)%nat then f tc else tc). split; [auto|]. rewrite upd_nth, I4. split; [auto|].
        destruct (c =? k)%nat; cbn; auto.
    + rewrite upd_ids by reflexivity. auto.
    + exists s'. rewrite B1. destruct (meaning p env d (o ++ [env id])) as [[env' d'] o'].
      destruct H as (H1 & H2 & H3 & H4 & H5 & H6 & H7). rewrite upd_ids in H5 by reflexivity.
      do 6 (split; [first [assumption|reflexivity|congruence|cbn in *; congruence]|]).
      intros c Hc i t' Hi Ne Op.
      destruct (H7 c Hc i (if (i =? k)%nat then f t' else t')) as (t2 & A & B); auto.
      * rewrite upd_nth, Hi. auto.
      * destruct (i =? k)%nat; cbn; auto.
      * exists t2. split; [auto|]. rewrite B. destruct (i =? k)%nat; reflexivity.
  - (* a section *)
    destruct L as (L1 & L2 & L3 & L4).
    destruct (find_in s id L1) as (k & t & F & N & T).
    pose proof (i_tape I k N) as (B1 & B2 & B3). rewrite T in *.
    cbn [run step]. unfold trace_on. rewrite F.
    set (s1 := set_cur (set_stack s (cur s :: stack s)) (Some k)).
    unfold init_new_tape. change (tapes s1) with (tapes s). rewrite N, (B3 L2).
    set (f := fun t : vtape E => mkTape (t_id t) WriteAccess [] (t_done t) (t_alloc t) dflt).
    set (g := fun t : vtape E => mkTape (t_id t) (t_mode t) [] (t_done t) true (t_sizes t)).
    unfold start_trace. change (fun t : vtape E => mkTape (t_id t) (t_mode t) [] (t_done t) true (t_sizes t)) with g.
    set (s2 := upd_tape (upd_tape s1 k f) k g).
    assert (S2 : forall i, nth_error (tapes s2) i =
      match nth_error (tapes s) i with Some t => Some (if (i =? k)%nat then g (f t) else t) | None => None end).
    { intros i. unfold s2. rewrite !upd_nth. cbn [s1 set_cur set_stack tapes].
      destruct (nth_error (tapes s) i); auto. destruct (i =? k)%nat; auto. }
    assert (Id2 : ids s2 = ids s).
    { unfold s2. rewrite !upd_ids by reflexivity. reflexivity. }
    destruct (i_cur I) as (c & tc & Hc & Hn & Hl).
    destruct (IHb s2 env (id :: open) [] o) as (s3 & H).
    { constructor.
      - rewrite Id2. apply I.
      - intros i t' Hi. rewrite S2 in Hi. destruct (nth_error (tapes s) i) as [t0|] eqn:N0; [|discriminate].
        destruct (i_tape I i N0) as (C1 & C2 & C3).
        destruct (Nat.eqb_spec i k); inversion Hi; subst t'; cbn [g f t_id t_mode t_done t_alloc].
        + subst i. rewrite N in N0. inversion N0; subst t0. split; [auto|]. split; [auto|].
          intros O. exfalso. apply O. left. auto.
        + assert (t_id t0 <> id).
          { intro Q. apply n. eapply ids_inj; eauto. apply I. congruence. }
          split; [auto|]. split.
          * intros [Q|Q]; [congruence|auto].
          * intros Q. apply C3. intro Z. apply Q. now right.
      - exists k, (g (f t)). split; [reflexivity|]. rewrite S2, N, Nat.eqb_refl. split; [auto|]. intros _. reflexivity. }
    { rewrite Id2. auto. }
    destruct (meaning b env [] o) as [[env1 d1] o1] eqn:MB.
    destruct H as (H1 & H2 & H3 & H4 & H5 & H6 & H7).
    rewrite run_app, H1. cbn [run step]. unfold trace_off.
    rewrite H3. cbn [s2 upd_tape s1 set_cur cur].
    destruct (i_cur H2) as (k3 & t3 & K1 & K2 & K3). rewrite H3 in K1. cbn [s2 upd_tape s1 set_cur cur] in K1.
    inversion K1; subst k3. clear K1. rewrite K2.
    assert (T3 : t_id t3 = id).
    { assert (Q : nth_error (ids s3) k = nth_error (ids s) k) by (rewrite H5, Id2; reflexivity).
      unfold ids in Q. rewrite !nth_error_map, K2, N in Q. cbn in Q. congruence. }
    destruct (i_tape H2 k K2) as (D1 & D2 & D3). rewrite T3 in *.
    destruct (D2 (or_introl eq_refl)) as [D4 D5]. rewrite D4, D5.
    specialize (K3 (or_introl eq_refl)).
    set (h := fun t : vtape E => mkTape (t_id t) NoMode (t_log t) (Some (t_log t)) (fl =? 0)%Z (t_sizes t)).
    assert (St3 : stack (upd_tape s3 k h) = cur s :: stack s) by (cbn; rewrite H4; reflexivity).
    cbn [upd_tape stack] in St3. cbn [upd_tape stack]. rewrite St3.
    set (s4 := set_stack (set_cur (upd_tape s3 k h) (cur s)) (stack s)).
    assert (S4 : forall i, nth_error (tapes s4) i =
      match nth_error (tapes s3) i with Some t => Some (if (i =? k)%nat then h t else t) | None => None end).
    { intros i. unfold s4. cbn [set_stack set_cur tapes]. apply upd_nth. }
    assert (Id4 : ids s4 = ids s).
    { transitivity (ids (upd_tape s3 k h)); [reflexivity|]. rewrite upd_ids by reflexivity. congruence. }
    assert (I4 : Inv s4 (fun i => if (i =? id)%Z then Some d1 else env1 i) open d).
    { constructor.
      - rewrite Id4. apply I.
      - intros i t' Hi. rewrite S4 in Hi. destruct (nth_error (tapes s3) i) as [t0|] eqn:N0; [|discriminate].
        destruct (i_tape H2 i N0) as (C1 & C2 & C3).
        destruct (Nat.eqb_spec i k); inversion Hi; subst t'; cbn [h t_id t_mode t_done t_alloc].
        + subst i. rewrite K2 in N0. inversion N0; subst t0. rewrite T3, Z.eqb_refl. split; [congruence|]. split; [tauto|auto].
        + assert (Q0 : t_id t0 <> id).
          { intro Q. apply n. eapply (ids_inj s3); eauto; [apply H2|congruence]. }
          destruct (Z.eqb_spec (t_id t0) id); [congruence|].
          split; [auto|]. split.
          * intros Q. apply C2. now right.
          * intros Q. apply C3. intros [Z|Z]; congruence.
      - (* the tape that was current before *)
        assert (Q : nth_error (ids s3) c = nth_error (ids s) c) by (rewrite H5, Id2; reflexivity).
        unfold ids in Q. rewrite !nth_error_map, Hn in Q.
        destruct (nth_error (tapes s3) c) as [t5|] eqn:N5; [|discriminate].
        cbn in Q. inversion Q as [Q'].
        exists c, (if (c =? k)%nat then h t5 else t5). split; [auto|]. rewrite S4, N5. split; [auto|].
        intros O.
        assert (Op : In (t_id tc) open) by (destruct (c =? k)%nat; cbn in O; congruence).
        assert (Ne : c <> k).
        { intro; subst c. rewrite N in Hn. inversion Hn; subst tc. congruence. }
        destruct (Nat.eqb_spec c k); [congruence|].
        destruct (H7 k eq_refl c tc) as (t6 & A & B); [|auto|now right|].
        + rewrite S2, Hn. destruct (Nat.eqb_spec c k); [congruence|auto].
        + rewrite N5 in A. inversion A; subst. rewrite B. auto. }
    destruct (IHp s4 (fun i => if (i =? id)%Z then Some d1 else env1 i) open d o1 I4) as (s5 & J).
    { rewrite Id4. auto. }
    destruct (meaning p (fun i => if (i =? id)%Z then Some d1 else env1 i) d o1) as [[env' d'] o'].
    destruct J as (J1 & J2 & J3 & J4 & J5 & J6 & J7).
    exists s5. split; [exact J1|]. split; [exact J2|]. split; [exact J3|]. split; [exact J4|].
    split; [congruence|]. split.
    { rewrite J6. transitivity (counter s3); [reflexivity|]. rewrite H6. reflexivity. }
    intros c0 Hc0 i t' Hi Ne Op. rewrite Hc in Hc0. inversion Hc0; subst c0.
    assert (Nk : i <> k).
    { intro; subst i. rewrite N in Hi. inversion Hi; subst t'. congruence. }
    destruct (H7 k eq_refl i t') as (t6 & A & B); [|auto|now right|].
    { rewrite S2, Hi. destruct (Nat.eqb_spec i k); [congruence|auto]. }
    assert (Q : t_id t6 = t_id t').
    { assert (Q : nth_error (ids s3) i = nth_error (ids s) i) by (rewrite H5, Id2; reflexivity).
      unfold ids in Q. rewrite !nth_error_map, A, Hi in Q. cbn in Q. congruence. }
    destruct (J7 c Hc i t6) as (t7 & A7 & B7); auto.
    { rewrite S4, A. destruct (Nat.eqb_spec i k); [congruence|auto]. }
    { congruence. }
    exists t7. split; [auto|]. congruence.
Qed.

(** finished traces *)
Lemma find_nth s id : NoDup (ids s) -> forall k t, nth_error (tapes s) k = Some t -> t_id t = id ->
  finished s id = t_done t.
Proof.
  intros N k t H T. unfold finished.
  assert (A : exists t', find (fun t => (t_id t =? id)%Z) (tapes s) = Some t').
  { destruct (find _ (tapes s)) eqn:F; eauto. apply find_none with (x := t) in F.
    - rewrite T, Z.eqb_refl in F. discriminate.
    - eapply nth_error_In; eauto. }
  destruct A as (t' & F). rewrite F. apply find_some in F. destruct F as [F1 F2].
  apply Z.eqb_eq in F2. apply In_nth_error in F1. destruct F1 as (j & F1).
  assert (j = k) by (eapply ids_inj; eauto; congruence). subst. congruence.
Qed.
End Proofs.
