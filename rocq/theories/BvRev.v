(* Proofs for C48: reverse propagation of bit patterns. *)
Require Import List ZArith NArith Bool Arith Lia.
Require Import Verif.AdModel Verif.AdSpec Verif.SpSpec Verif.SpProofs Verif.AdRestore Verif.AdReplay Verif.AdKeep
  Verif.BvModel Verif.BvSpec Verif.BvBits Verif.BvFwd.
Import ListNotations.
Set Implicit Arguments.

Lemma mem_nat_false l s : mem_nat l s = false <-> ~ In l s.
Proof. rewrite <- mem_nat_iff. destruct (mem_nat l s); split; congruence. Qed.

(* ------------------------------------------------------------------ *)
(* Loops.                                                               *)
Notation bp := (pats bool).
Definition le (A A' : bp) : Prop := forall l, A l = true -> A' l = true.

Lemma pset_eq (A : bp) l v : pset A l v l = v.
Proof. unfold pset. now rewrite Nat.eqb_refl. Qed.
Lemma pset_neq (A : bp) l v j : j <> l -> pset A l v j = A j.
Proof. intros H. unfold pset. apply Nat.eqb_neq in H. now rewrite H. Qed.

Lemma add_le (A : bp) res arg : le A (qadd orb A res arg).
Proof.
  intros l H. unfold qadd, pset. destruct (Nat.eqb_spec l arg); subst; auto. now rewrite H.
Qed.
Lemma add_arg (A : bp) res arg : A res = true -> qadd orb A res arg arg = true.
Proof. intros H. unfold qadd. rewrite pset_eq, H. apply orb_true_r. Qed.

Lemma qdot_le n a1 a2 res : forall q A, le A (qdot orb n a1 a2 res q A).
Proof.
  induction n; intros q A l H; cbn [qdot]; auto.
  apply IHn. apply (@add_le _ res (a1 + q)). now apply (@add_le _ res (a2 + q)).
Qed.
Lemma qdot_arg n a1 a2 res : forall q A j, A res = true -> q <= j < q + n ->
  qdot orb n a1 a2 res q A (a1 + j) = true /\ qdot orb n a1 a2 res q A (a2 + j) = true.
Proof.
  induction n; intros q A j H Hj; cbn [qdot]; [lia|].
  set (A1 := pset A (a2 + q) _). set (A2 := pset A1 (a1 + q) _).
  assert (H1 : A1 res = true) by (now apply (@add_le _ res (a2 + q))).
  assert (H2 : A2 res = true) by (now apply (@add_le _ res (a1 + q))).
  destruct (Nat.eq_dec j q) as [->|N]; [|apply IHn; auto; lia].
  split; apply qdot_le.
  - now apply (@add_arg _ res (a1 + q)).
  - apply (@add_le _ res (a1 + q)). now apply (@add_arg _ res (a2 + q)).
Qed.

Lemma qaxpy_le n arg a1 a2 res : forall q A, le A (qaxpy orb n arg a1 a2 res q A).
Proof.
  induction n; intros q A l H; cbn [qaxpy]; auto.
  apply IHn. apply (@add_le _ (res + q) (a1 + q)). apply (@add_le _ (res + q) (a2 + q)).
  now apply (@add_le _ (res + q) arg).
Qed.
Lemma qaxpy_arg n arg a1 a2 res : forall q A j, A (res + j) = true -> q <= j < q + n ->
  qaxpy orb n arg a1 a2 res q A (a1 + j) = true /\
  qaxpy orb n arg a1 a2 res q A (a2 + j) = true /\
  qaxpy orb n arg a1 a2 res q A arg = true.
Proof.
  induction n; intros q A j H Hj; cbn [qaxpy]; [lia|].
  set (A1 := pset A arg _). set (A2 := pset A1 (a2 + q) _).
  assert (H1 : le A A1) by (apply (@add_le _ (res + q) arg)).
  assert (H2 : le A1 A2) by (apply (@add_le _ (res + q) (a2 + q))).
  match goal with |- context [qaxpy _ _ _ _ _ _ _ ?a] => set (A3 := a) end.
  assert (H3 : le A2 A3) by (apply (@add_le _ (res + q) (a1 + q))).
  destruct (Nat.eq_dec j q) as [->|N]; [|apply IHn; auto; lia].
  repeat split; apply qaxpy_le.
  - apply (@add_arg _ (res + q) (a1 + q)). auto.
  - apply H3. apply (@add_arg _ (res + q) (a2 + q)). auto.
  - apply H3, H2. apply (@add_arg _ (res + q) arg). auto.
Qed.

Definition within (l r n : nat) : Prop := r <= l < r + n.
Lemma qcopy_le n arg res : forall q A l, ~ within l (res + q) n -> A l = true ->
  qcopy false orb n arg res q A l = true.
Proof.
  induction n; intros q A l N H; cbn [qcopy]; auto.
  unfold within in N. apply IHn; [unfold within; lia|]. rewrite pset_neq by lia.
  now apply (@add_le _ (res + q) (arg + q)).
Qed.
Lemma qcopy_arg n arg res : forall q A j, A (res + j) = true -> q <= j < q + n ->
  (forall i, q <= i < q + n -> ~ within (arg + i) (res + q) n) ->
  qcopy false orb n arg res q A (arg + j) = true.
Proof.
  induction n; intros q A j H Hj D; cbn [qcopy]; [lia|].
  assert (D1 : forall i, q <= i < q + S n -> ~ within (arg + i) (res + S q) n).
  { intros i Hi. specialize (D i Hi). unfold within in *. lia. }
  destruct (Nat.eq_dec j q) as [->|N].
  - apply qcopy_le; [apply D1; lia|]. rewrite pset_neq.
    + now apply (@add_arg _ (res + q) (arg + q)).
    + specialize (D q ltac:(lia)). unfold within in D. lia.
  - apply IHn; try lia.
    + rewrite pset_neq by lia. now apply (@add_le _ (res + q) (arg + q)).
    + intros i Hi. apply D1. lia.
Qed.

Lemma pzero_keep n : forall res (A : bp) l, ~ within l res n -> pzero false n res A l = A l.
Proof.
  induction n; intros res A l N; cbn [pzero]; auto. unfold within in *.
  rewrite IHn by (unfold within; lia). apply pset_neq. lia.
Qed.
Lemma pzero_zero n : forall res (A : bp) l, within l res n -> pzero false n res A l = false.
Proof.
  induction n; intros res A l N; cbn [pzero]; [unfold within in N; lia|].
  destruct (Nat.eq_dec l res) as [->|E].
  - rewrite pzero_keep by (unfold within; lia). apply pset_eq.
  - apply IHn. unfold within in *. lia.
Qed.

(* forward *)
Lemma pcopy_out n arg res : forall q (B : bp) l, ~ within l (res + q) n ->
  pcopy n arg res q B l = B l.
Proof.
  induction n; intros q B l N; cbn [pcopy]; auto. unfold within in *.
  rewrite IHn by (unfold within; lia). apply pset_neq. lia.
Qed.
Lemma pcopy_in n arg res : forall q (B : bp) j, q <= j < q + n ->
  (forall i, q <= i < q + n -> ~ within (arg + i) (res + q) n) ->
  pcopy n arg res q B (res + j) = B (arg + j).
Proof.
  induction n; intros q B j Hj D; cbn [pcopy]; [lia|].
  destruct (Nat.eq_dec j q) as [->|N].
  - rewrite pcopy_out by (unfold within; lia). apply pset_eq.
  - rewrite IHn; try lia.
    + apply pset_neq. specialize (D j Hj). unfold within in D. lia.
    + intros i Hi. specialize (D i ltac:(lia)). unfold within in *. lia.
Qed.
Lemma pdot_out n a1 a2 res : forall q (B : bp) l, l <> res -> pdot orb n a1 a2 res q B l = B l.
Proof. induction n; intros q B l N; cbn [pdot]; auto. rewrite IHn by auto. now apply pset_neq. Qed.
Lemma pdot_in n a1 a2 res : forall q (B : bp), pdot orb n a1 a2 res q B res = true ->
  B res = true \/ exists j, q <= j < q + n /\
    ((a1 + j <> res /\ B (a1 + j) = true) \/ (a2 + j <> res /\ B (a2 + j) = true)).
Proof.
  induction n; intros q B H; cbn [pdot] in H; auto.
  apply IHn in H. rewrite pset_eq in H. destruct H as [H|(j & Hj & H)].
  - apply orb_true_iff in H. destruct H as [H|H]; auto.
    apply orb_true_iff in H. destruct H as [H|H].
    + destruct (Nat.eq_dec (a1 + q) res) as [E|E]; [rewrite E in H; auto|].
      right. exists q. split; [lia|]. auto.
    + destruct (Nat.eq_dec (a2 + q) res) as [E|E]; [rewrite E in H; auto|].
      right. exists q. split; [lia|]. auto.
  - right. exists j. split; [lia|]. destruct H as [[H1 H2]|[H1 H2]];
      rewrite pset_neq in H2 by auto; auto.
Qed.
Lemma paxpy_out n arg a1 a2 res : forall q (B : bp) l, ~ within l (res + q) n ->
  paxpy orb n arg a1 a2 res q B l = B l.
Proof.
  induction n; intros q B l N; cbn [paxpy]; auto. unfold within in *.
  rewrite IHn by (unfold within; lia). apply pset_neq. lia.
Qed.
Lemma paxpy_in n arg a1 a2 res : forall q (B : bp) j, q <= j < q + n ->
  ~ within arg (res + q) n ->
  (a1 = res \/ forall i, q <= i < q + n -> ~ within (a1 + i) (res + q) n) ->
  (a2 = res \/ forall i, q <= i < q + n -> ~ within (a2 + i) (res + q) n) ->
  paxpy orb n arg a1 a2 res q B (res + j) = B (a2 + j) || (B (a1 + j) || B arg).
Proof.
  induction n; intros q B j Hj Da D1 D2; cbn [paxpy]; [lia|].
  destruct (Nat.eq_dec j q) as [->|N].
  - rewrite paxpy_out by (unfold within; lia). apply pset_eq.
  - rewrite IHn; try lia.
    + rewrite !pset_neq; auto.
      * unfold within in Da. lia.
      * destruct D1 as [->|D1]; [lia|]. specialize (D1 j Hj). unfold within in D1. lia.
      * destruct D2 as [->|D2]; [lia|]. specialize (D2 j Hj). unfold within in D2. lia.
    + unfold within in *. lia.
    + destruct D1 as [->|D1]; [auto|right]. intros i Hi. specialize (D1 i ltac:(lia)).
      unfold within in *. lia.
    + destruct D2 as [->|D2]; [auto|right]. intros i Hi. specialize (D2 i ltac:(lia)).
      unfold within in *. lia.
Qed.

(* ------------------------------------------------------------------ *)
(* One operation: a column that reaches a location forward and a result that is
   reached from it backward meet before the operation as well.           *)
Section Dual.
Variable K : Arith.
Notation val := (V K).
Notation mem := (mem K).
Notation op := (op K).
Notation bop := (bop K).
Notation bsafe := (@fsafe bool false orb K bmin orb).
Notation btight := (@ftight bool false orb K bmin orb orb).
Notation csafe := (@qsafe bool false orb K orb).
Notation ctight := (@qtight bool false orb K orb).

Definition meet (h : list nat) (B A : bp) : Prop :=
  exists l, ~ In l h /\ B l = true /\ A l = true.
Definition reaches (sb : bool) (b : bop) (A : bp) : Prop :=
  match b with AssignInd _ res => sb = true /\ A res = true | _ => False end.

Lemma one_le A res arg l : l <> res -> A l = true -> qone false orb A res arg l = true.
Proof.
  intros N H. unfold qone, pset. destruct (Nat.eqb l arg) eqn:E.
  - apply Nat.eqb_eq in E. subst. apply Nat.eqb_neq in N. now rewrite N, H.
  - apply Nat.eqb_neq in N. now rewrite N.
Qed.
Lemma one_arg A res arg : A res = true -> qone false orb A res arg arg = true.
Proof. intros H. unfold qone. rewrite pset_eq, H. apply orb_true_r. Qed.
Lemma two_le A res a1 a2 l : l <> res -> A l = true -> qtwo false orb A res a1 a2 l = true.
Proof.
  intros N H. unfold qtwo, pset. destruct (Nat.eqb_spec l a2); subst;
    rewrite one_le; auto.
Qed.
Lemma two_a1 A res a1 a2 : A res = true -> qtwo false orb A res a1 a2 a1 = true.
Proof.
  intros H. unfold qtwo, pset. destruct (Nat.eqb_spec a1 a2); subst;
    rewrite one_arg; auto.
Qed.
Lemma two_a2 A res a1 a2 : A res = true -> qtwo false orb A res a1 a2 a2 = true.
Proof. intros H. unfold qtwo. rewrite pset_eq, H. apply orb_true_r. Qed.

Lemma not_stale1 h l res : ~ In l (filter (fun l => negb (mem_nat l [res])) h) ->
  l = res \/ ~ In l h.
Proof.
  intros H. destruct (Nat.eq_dec l res) as [|N]; auto. right. intros Hl. apply H.
  apply filter_In. split; auto. cbn. apply Nat.eqb_neq in N. now rewrite N.
Qed.
Lemma not_stale_range h l r n : ~ In l (filter (fun l => negb (mem_nat l (seq r n))) h) ->
  within l r n \/ ~ In l h.
Proof.
  intros H. destruct (in_dec Nat.eq_dec l (seq r n)) as [Q|Q].
  - left. now apply in_seq in Q.
  - right. intros Hl. apply H. apply filter_In. split; auto.
    apply negb_true_iff, mem_nat_false. auto.
Qed.
Lemma not_stale_two h l a2 res : ~ In l (filter (fun l => negb (Nat.eqb l res)) (a2 :: h)) ->
  l = res \/ (~ In l h /\ l <> a2).
Proof.
  rewrite filter_In. destruct (Nat.eq_dec l res) as [|N]; auto.
  apply Nat.eqb_neq in N. rewrite N. cbn. intros H. right. split; intuition.
Qed.

Ltac reads R := apply R; cbn; tauto.

(* results with one source *)
Lemma meet_one h (B A A' : bp) res arg l :
  ~ In arg h -> (l = res \/ ~ In l h) ->
  pset B res (B arg) l = true -> A l = true ->
  (forall j, j <> res -> A j = true -> A' j = true) -> (A res = true -> A' arg = true) ->
  meet h B A'.
Proof.
  intros Ha Hl HB HA M1 M2. destruct (Nat.eq_dec l res) as [->|N].
  - rewrite pset_eq in HB. exists arg. auto.
  - rewrite pset_neq in HB by auto. exists l. intuition.
Qed.
Lemma meet_two h (B A A' : bp) res a1 a2 l :
  ~ In a1 h -> ~ In a2 h -> (l = res \/ ~ In l h) ->
  pset B res (B a1 || B a2) l = true -> A l = true ->
  (forall j, j <> res -> A j = true -> A' j = true) ->
  (A res = true -> A' a1 = true) -> (A res = true -> A' a2 = true) ->
  meet h B A'.
Proof.
  intros Ha Hb Hl HB HA M M1 M2. destruct (Nat.eq_dec l res) as [->|N].
  - rewrite pset_eq in HB. apply orb_true_iff in HB. destruct HB; [exists a1|exists a2]; auto.
  - rewrite pset_neq in HB by auto. exists l. intuition.
Qed.
(* a constant *)
Lemma meet_zero h (B A A' : bp) res l :
  (l = res \/ ~ In l h) -> pset B res false l = true -> A l = true ->
  (forall j, j <> res -> A j = true -> A' j = true) -> meet h B A'.
Proof.
  intros Hl HB HA M. destruct (Nat.eq_dec l res) as [->|N].
  - rewrite pset_eq in HB. discriminate.
  - rewrite pset_neq in HB by auto. exists l. intuition.
Qed.

Lemma apart_within a n b m j : BvSpec.apart a n b m = true -> within j a n -> ~ within j b m.
Proof.
  unfold BvSpec.apart, within. rewrite orb_true_iff, !Nat.leb_le. lia.
Qed.

Lemma move_le (A : bp) res a j : j <> res -> A j = true ->
  pset (qadd orb A res a) res false j = true.
Proof. intros N H. rewrite pset_neq by auto. now apply add_le. Qed.
Lemma move_arg (A : bp) res a : a <> res -> A res = true ->
  pset (qadd orb A res a) res false a = true.
Proof. intros N H. rewrite pset_neq by auto. now apply add_arg. Qed.

(* the operand of a conditional assignment *)
Lemma meet_cond h (B A : bp) res a l :
  ~ In a h -> (l = res \/ ~ In l h) -> pset B res (B a) l = true -> A l = true ->
  meet h B (if Nat.eqb res a then A else pset (qadd orb A res a) res false).
Proof.
  intros Ha Hl HB HA. destruct (Nat.eqb_spec res a) as [->|N].
  - destruct (Nat.eq_dec l a) as [->|E].
    + rewrite pset_eq in HB. exists a. auto.
    + rewrite pset_neq in HB by auto. exists l. intuition.
  - apply (@meet_one h B A _ res a l); auto.
    + intros. now apply move_le.
    + apply move_arg. auto.
Qed.

Lemma cond_both h (B A : bp) res a1 a2 l :
  ~ In a1 h -> ~ In a2 h -> (l = res \/ ~ In l h) -> A l = true ->
  pset B res (B a1 || B a2) l = true ->
  meet h B (let A1 := if Nat.eqb res a1 then A else qadd orb A res a1 in
            let A2 := if Nat.eqb res a2 then A1 else qadd orb A1 res a2 in
            if Nat.eqb res a1 || Nat.eqb res a2 then A2 else pset A2 res false).
Proof.
  intros H1 H2 Hl HA HB. cbv zeta.
  match goal with |- meet h B ?X => set (A' := X) end.
  assert (M : forall j, j <> res -> A j = true -> A' j = true).
  { intros j N Hj. unfold A'.
    destruct (Nat.eqb_spec res a1), (Nat.eqb_spec res a2); cbn [orb]; auto;
      rewrite ?pset_neq by auto;
      solve [auto | now apply add_le | now repeat apply add_le]. }
  assert (M1 : A res = true -> A' a1 = true).
  { intros Hr. unfold A'.
    destruct (Nat.eqb_spec res a1), (Nat.eqb_spec res a2); cbn [orb]; subst; auto;
      rewrite ?pset_neq by auto;
      solve [auto | now apply add_le | now apply add_arg | apply add_le; now apply add_arg
            | apply add_arg; now apply add_le]. }
  assert (M2 : A res = true -> A' a2 = true).
  { intros Hr. unfold A'.
    destruct (Nat.eqb_spec res a1), (Nat.eqb_spec res a2); cbn [orb]; subst; auto;
      rewrite ?pset_neq by auto;
      solve [auto | now apply add_le | now apply add_arg | apply add_le; now apply add_arg
            | apply add_arg; now apply add_le]. }
  clearbody A'. now apply (@meet_two h B A A' res a1 a2 l).
Qed.

Lemma dual_safe sb sd b (B A : bp) h :
  rev_loses false b = false -> (forall l, In l (breads b) -> ~ In l h) ->
  meet (stale b h) (bsafe sb b B) A ->
  meet h B (csafe sd b A) \/ reaches sb b A.
Proof.
  intros L R (l & Hl & HB & HA).
  assert (Z : forall res, forall j, j <> res -> A j = true -> pset A res false j = true)
    by (intros; rewrite pset_neq; auto).
  destruct b; cbn [fsafe qsafe breads bwrites stale rev_loses reaches bmin] in *;
  repeat match type of Hl with
  | ~ In _ (filter (fun l => negb (mem_nat l [_])) _) => apply not_stale1 in Hl
  end;
  match goal with
  | |- meet _ _ (qone _ _ _ _ ?a) \/ _ =>
      left; eapply (@meet_one h B A _ res a l);
      [reads R|tauto|exact HB|exact HA|intros; now apply one_le|apply one_arg]
  | |- meet _ _ (qtwo _ _ _ _ ?a ?b) \/ _ =>
      left; apply (@meet_two h B A _ res a b l);
      [reads R|reads R|exact Hl|exact HB|exact HA|intros; now apply two_le|apply two_a1|apply two_a2]
  | |- meet _ _ A \/ False =>
      left; exists l; split; [|auto]; first [exact Hl|destruct Hl as [->|Hl]; [reads R|exact Hl]
        | intros Q; apply Hl; apply filter_In; split; auto]
  | _ => idtac
  end.
  - left. apply Nat.eqb_neq in L. apply (@meet_one h B A _ res arg l); auto.
    + reads R.
    + intros. now apply move_le.
    + apply move_arg. auto.
  - left. apply (@meet_zero h B A _ res l); auto.
  - left. apply (@meet_zero h B A _ res l); auto.
  - left. apply (@meet_zero h B A _ res l); auto.
  - left. apply (@meet_zero h B A _ res l); auto.
  - destruct (Nat.eq_dec l res) as [->|N].
    + rewrite pset_eq in HB. auto.
    + rewrite pset_neq in HB by auto. left. exists l. intuition.
  - left. exists l. cbn in Hl. repeat split; auto. rewrite pset_neq; auto.
  - left. apply (@meet_two h B A _ res res arg l); auto; try reads R.
    + intros. now apply add_le.
    + intros. now apply add_le.
    + apply add_arg.
  - left. apply (@meet_two h B A _ res res arg l); auto; try reads R.
    + intros. now apply add_le.
    + intros. now apply add_le.
    + apply add_arg.
  - left. apply (@meet_two h B A _ res res arg l); auto; try reads R.
    + intros. now apply add_le.
    + intros. now apply add_le.
    + apply add_arg.
  - left. destruct (Nat.eq_dec l res) as [->|N].
    + rewrite pset_eq in HB. apply orb_true_iff in HB. destruct HB as [HB|HB].
      * exists res. split; [reads R|]. split; auto. now repeat apply add_le.
      * apply orb_true_iff in HB. destruct HB as [HB|HB].
        -- exists a1. split; [reads R|]. split; auto. apply add_arg. now apply add_le.
        -- exists a2. split; [reads R|]. split; auto. apply add_le. now apply add_arg.
    + rewrite pset_neq in HB by auto. exists l. split; [tauto|]. split; auto.
      now repeat apply add_le.
  - left. destruct (Nat.eq_dec l res) as [->|N].
    + rewrite pset_eq in HB. apply orb_true_iff in HB. destruct HB as [HB|HB].
      * exists res. split; [reads R|]. split; auto. now repeat apply add_le.
      * apply orb_true_iff in HB. destruct HB as [HB|HB].
        -- exists a1. split; [reads R|]. split; auto. apply add_arg. now apply add_le.
        -- exists a2. split; [reads R|]. split; auto. apply add_le. now apply add_arg.
    + rewrite pset_neq in HB by auto. exists l. split; [tauto|]. split; auto.
      now repeat apply add_le.
  - left. apply not_stale_two in Hl. destruct (Nat.eq_dec l res) as [->|N].
    + rewrite pset_eq in HB. exists a1. split; [reads R|]. split; [|now apply one_arg].
      unfold pset in HB. destruct (Nat.eqb a1 a2); auto.
    + rewrite !pset_neq in HB by (auto; tauto). exists l. split; [tauto|].
      split; [auto|now apply one_le].
  - left. apply not_stale_two in Hl. destruct (Nat.eq_dec l res) as [->|N].
    + rewrite pset_eq in HB. exists a1. split; [reads R|]. split; [|now apply one_arg].
      unfold pset in HB. destruct (Nat.eqb a1 a2); auto.
    + rewrite !pset_neq in HB by (auto; tauto). exists l. split; [tauto|].
      split; [auto|now apply one_le].
  - left. apply (@meet_zero h B A _ res l); auto.
  - left. apply (@meet_zero h B A _ res l); auto.
  - left. revert HB. apply cond_both; auto; reads R.
  - left. revert HB. apply cond_both; auto; reads R.
  - discriminate L.
  - discriminate L.
  - left. apply not_stale_range in Hl. apply negb_false_iff in L.
    assert (D : forall i, 0 <= i < 0 + size -> ~ within (arg + i) (res + 0) size).
    { intros i Hi. rewrite Nat.add_0_r. apply (apart_within L). unfold within. lia. }
    destruct (Nat.le_gt_cases res l) as [Q1|Q1], (Nat.lt_ge_cases l (res + size)) as [Q2|Q2].
    + replace l with (res + (l - res)) in HB, HA by lia. set (j := l - res) in *.
      rewrite pcopy_in in HB by (auto; unfold j; lia).
      exists (arg + j). split; [|split; [exact HB|apply qcopy_arg; auto; unfold j; lia]].
      apply R. apply in_seq. unfold j. lia.
    + rewrite pcopy_out in HB by (unfold within; lia). exists l. unfold within in Hl.
      split; [intuition lia|]. split; auto. apply qcopy_le; auto. unfold within. lia.
    + rewrite pcopy_out in HB by (unfold within; lia). exists l. unfold within in Hl.
      split; [intuition lia|]. split; auto. apply qcopy_le; auto. unfold within. lia.
    + rewrite pcopy_out in HB by (unfold within; lia). exists l. unfold within in Hl.
      split; [intuition lia|]. split; auto. apply qcopy_le; auto. unfold within. lia.
  - left. destruct (Nat.eq_dec l res) as [->|N].
    + apply pdot_in in HB. rewrite pset_eq in HB. destruct HB as [HB|(j & Hj & HB)]; [discriminate HB|].
      destruct (@qdot_arg size a1 a2 res 0 A j HA Hj) as [Q1 Q2].
      destruct HB as [[HN HB]|[HN HB]]; rewrite pset_neq in HB by auto.
      * exists (a1 + j). split; [apply R; apply in_app_iff; left; apply in_seq; lia|auto].
      * exists (a2 + j). split; [apply R; apply in_app_iff; right; apply in_seq; lia|auto].
    + rewrite pdot_out, pset_neq in HB by auto. exists l. split; [tauto|].
      split; auto. now apply qdot_le.
  - left. apply not_stale_range in Hl. apply negb_false_iff in L.
    apply andb_true_iff in L. destruct L as [L L2]. apply andb_true_iff in L. destruct L as [L0 L1].
    assert (Da : ~ within arg (res + 0) size).
    { rewrite Nat.add_0_r. apply (apart_within L0). unfold within. lia. }
    assert (D : forall a, Nat.eqb a res || BvSpec.apart a size res size = true ->
              a = res \/ forall i, 0 <= i < 0 + size -> ~ within (a + i) (res + 0) size).
    { intros a Ha. apply orb_true_iff in Ha. destruct Ha as [Ha|Ha].
      - left. now apply Nat.eqb_eq.
      - right. intros i Hi. rewrite Nat.add_0_r. apply (apart_within Ha). unfold within. lia. }
    destruct (Nat.le_gt_cases res l) as [Q1|Q1], (Nat.lt_ge_cases l (res + size)) as [Q2|Q2].
    + replace l with (res + (l - res)) in HB, HA by lia. set (j := l - res) in *.
      rewrite paxpy_in in HB by (auto; unfold j; lia).
      destruct (@qaxpy_arg size arg a1 a2 res 0 A j HA ltac:(unfold j; lia)) as (P1 & P2 & P3).
      apply orb_true_iff in HB. destruct HB as [HB|HB]; [|apply orb_true_iff in HB; destruct HB as [HB|HB]].
      * exists (a2 + j). split; [apply R; right; apply in_app_iff; right; apply in_seq; unfold j; lia|auto].
      * exists (a1 + j). split; [apply R; right; apply in_app_iff; left; apply in_seq; unfold j; lia|auto].
      * exists arg. split; [apply R; now left|auto].
    + rewrite paxpy_out in HB by (unfold within; lia). exists l. unfold within in Hl.
      split; [intuition lia|]. split; auto. now apply qaxpy_le.
    + rewrite paxpy_out in HB by (unfold within; lia). exists l. unfold within in Hl.
      split; [intuition lia|]. split; auto. now apply qaxpy_le.
    + rewrite paxpy_out in HB by (unfold within; lia). exists l. unfold within in Hl.
      split; [intuition lia|]. split; auto. now apply qaxpy_le.
  - left. destruct (Nat.le_gt_cases res l) as [Q1|Q1], (Nat.lt_ge_cases l (res + size)) as [Q2|Q2];
      [rewrite pzero_zero in HB by (unfold within; lia); discriminate HB| | |];
      rewrite pzero_keep in HB by (unfold within; lia); exists l;
      rewrite pzero_keep by (unfold within; lia); auto.
  - left. exists l. rewrite in_app_iff in Hl. split; [tauto|]. split; auto.
    rewrite pzero_keep; auto. unfold within. intros Q. apply Hl. left. apply in_seq. lia.
Qed.

Lemma dual_tight sb sd b (B A : bp) h (T T' : mem) :
  rev_loses true b = false -> (forall l, In l (breads b) -> ~ In l h) ->
  smooth b T = true -> (forall l, In l (needs b) -> T' l = T l) ->
  meet (stale b h) (btight sb b T B) A ->
  meet h B (ctight sd b T' A) \/ reaches sb b A.
Proof.
  intros L R Sm Nd M.
  destruct b; try (apply dual_safe; auto; fail); cbn [qtight reaches];
    cbn [needs smooth breads stale bwrites ftight] in *; left.
  - destruct M as (l & Hl & HB & HA). apply not_stale1 in Hl.
    rewrite (Nd a1), (Nd a2) by (cbn; auto).
    destruct (ltb K (T a2) (T a1)); [|destruct (ltb K (T a1) (T a2))].
    + apply (@meet_one h B A _ res a2 l); [reads R|exact Hl|exact HB|exact HA|intros; now apply one_le|apply one_arg].
    + apply (@meet_one h B A _ res a1 l); [reads R|exact Hl|exact HB|exact HA|intros; now apply one_le|apply one_arg].
    + apply (@meet_two h B A _ res a1 a2 l); [reads R|reads R|exact Hl|exact HB|exact HA|intros; now apply two_le|apply two_a2|apply two_a1].
  - rewrite (Nd arg), Sm by (cbn; auto).
    destruct M as (l & Hl & HB & HA). apply not_stale1 in Hl. cbn [fsafe] in HB.
    apply (@meet_one h B A _ res arg l); [reads R|exact Hl|exact HB|exact HA|intros; now apply one_le|apply one_arg].
  - destruct M as (l & Hl & HB & HA). apply not_stale1 in Hl. rewrite (Nd arg) by (cbn; auto).
    apply (@meet_cond h B A res _ l); auto. destruct (ltb K (zero K) (T arg)); reads R.
  - destruct M as (l & Hl & HB & HA). apply not_stale1 in Hl. rewrite (Nd arg) by (cbn; auto).
    apply (@meet_cond h B A res _ l); auto. destruct (leb K (zero K) (T arg)); reads R.
  - destruct M as (l & Hl & HB & HA). apply not_stale1 in Hl. rewrite (Nd arg) by (cbn; auto).
    destruct (ltb K (zero K) (T arg)).
    + apply (@meet_cond h B A res _ l); auto. reads R.
    + exists l. split; auto. destruct Hl as [->|Hl]; auto. reads R.
  - destruct M as (l & Hl & HB & HA). apply not_stale1 in Hl. rewrite (Nd arg) by (cbn; auto).
    destruct (leb K (zero K) (T arg)).
    + apply (@meet_cond h B A res _ l); auto. reads R.
    + exists l. split; auto. destruct Hl as [->|Hl]; auto. reads R.
Qed.

(* ------------------------------------------------------------------ *)
(* Whole sweeps.                                                        *)
Variables (n m c k : nat) (A0 : bp) (gz : nat -> bool).

Fixpoint bsrun (sb : nat -> bool) (t : list op) (i : nat) (B : bp) : list bool :=
  match t with
  | Plain b :: t' =>
      prow b B ++ bsrun sb t' (if is_ind b then S i else i) (bsafe (sb i) b B)
  | _ => []
  end.
Lemma fsrun_bsrun sb t : forall i B rows rows',
  fsrun false orb bmin orb sb t i B rows = SwRows rows' -> rows' = rows ++ bsrun sb t i B.
Proof.
  induction t as [|o t IH]; intros i B rows rows' E; cbn [fsrun bsrun] in *.
  - injection E as <-. now rewrite app_nil_r.
  - destruct o; try discriminate E. apply IH in E. rewrite E, app_assoc. reflexivity.
Qed.

Lemma deps_cons (o : op) t (T : mem) :
  deps (o :: t) = (if is_dep (resolve T o) then 1 else 0) + deps t.
Proof.
  unfold deps. cbn [filter]. destruct o; cbn [resolve is_dep]; try reflexivity.
  destruct (is_dep b); reflexivity.
Qed.

Lemma qnext_qA b A' (s : qstate bool) : qA (qnext (K:=K) b A' s) = A'.
Proof. destruct b; reflexivity. Qed.
Lemma qnext_i b A' (s : qstate bool) :
  qi (qnext (K:=K) b A' s) = qi s - (if is_ind b then 1 else 0).
Proof. destruct b; cbn; lia. Qed.
Lemma qnext_d b A' (s : qstate bool) :
  qd (qnext (K:=K) b A' s) = qd s - (if is_dep b then 1 else 0).
Proof. destruct b; cbn; lia. Qed.
Lemma qnext_z b A' (s : qstate bool) j :
  (is_ind b = true -> j <> qi s - 1) -> qz (qnext (K:=K) b A' s) j = qz s j.
Proof.
  destruct b; intros H; try reflexivity. cbn [qnext qz].
  specialize (H eq_refl). apply Nat.eqb_neq in H. now rewrite H.
Qed.
Lemma qnext_reach sb b A' (s : qstate bool) : reaches sb b (qA s) ->
  is_ind b = true /\ sb = true /\ qz (qnext b A' s) (qi s - 1) = true.
Proof.
  destruct b; cbn [reaches]; try tauto. intros [-> H]. cbn [qnext qz is_ind].
  rewrite Nat.eqb_refl. auto.
Qed.

(* one step, whatever the mode *)
Lemma step_dual (b : bop) (B B' A' : bp) h i d (s : qstate bool) rest :
  qi s = i + (if is_ind b then 1 else 0) -> qd s = d + (if is_dep b then 1 else 0) ->
  (forall l, In l (breads b) -> ~ In l h) ->
  (is_dep b = true -> forall res, b = AssignDep _ res -> A' = pset (qA s) res (sbit m k d)) ->
  d + (if is_dep b then 1 else 0) <= m ->
  (meet (stale b h) B' (qA s) -> meet h B A' \/ reaches (sbit n c i) b (qA s)) ->
  (d + (if is_dep b then 1 else 0) <= k ->
   nth (k - (d + (if is_dep b then 1 else 0))) rest false = true ->
   meet (stale b h) B' (qA s) \/
   (i + (if is_ind b then 1 else 0) <= c /\ qz s c = true)) ->
  d <= k -> nth (k - d) (prow b B ++ rest) false = true ->
  meet h B (qA (qnext b A' s)) \/ (i <= c /\ qz (qnext b A' s) c = true).
Proof.
  intros Qi Qd R Dp Dm Du IH Hd Hn. rewrite qnext_qA.
  assert (C : (d <= k /\ is_dep b = true /\ k = d) \/
              (d + (if is_dep b then 1 else 0) <= k /\
               nth (k - (d + (if is_dep b then 1 else 0))) rest false = true)).
  { destruct b; cbn [is_dep prow app] in *; rewrite ?Nat.add_0_r; auto.
    destruct (Nat.eq_dec k d) as [->|N]; auto. right. split; [lia|].
    destruct (k - d) as [|q] eqn:Q; [lia|]. cbn [nth] in Hn.
    replace (k - (d + 1)) with q by lia. exact Hn. }
  destruct C as [(_ & Db & ->)|[C1 C2]].
  - destruct b; try discriminate Db. left. rewrite (Dp eq_refl res eq_refl).
    cbn [prow app] in Hn. rewrite Nat.sub_diag in Hn. cbn [nth] in Hn.
    exists res. split; [apply R; cbn; auto|]. split; auto. rewrite pset_eq.
    unfold sbit. rewrite Nat.eqb_refl. apply Nat.ltb_lt. cbn in Dm. lia.
  - destruct (IH C1 C2) as [M|[Hc Hz]].
    + destruct (Du M) as [Q|Q]; auto. right.
      destruct (@qnext_reach (sbit n c i) b A' s Q) as (Ib & Sb & Z).
      unfold sbit in Sb. apply andb_true_iff in Sb. destruct Sb as [Sb _]. apply Nat.eqb_eq in Sb.
      rewrite Ib in Qi. replace (qi s - 1) with c in Z by lia. split; [lia|exact Z].
    + right. split; [lia|]. rewrite qnext_z; auto. intros Ib. rewrite Ib in *. lia.
Qed.

Lemma rev_safe_dual t : forall i d e B h,
  qsrun false orb orb (sbit m k) t (mkQ A0 gz (i + inds t) (d + deps t)) = Some e ->
  d + deps t <= m ->
  rev_keeps false (plains t) h = true ->
  qi e = i /\ qd e = d /\
  (d <= k -> nth (k - d) (bsrun (sbit n c) t i B) false = true ->
   meet h B (qA e) \/ (i <= c /\ qz e c = true)).
Proof.
  induction t as [|o t IH]; intros i d e B h E Hm G.
  - cbn in E. injection E as <-. unfold inds, deps. cbn. rewrite !Nat.add_0_r.
    repeat split; auto. intros _ Q. destruct (k - d); discriminate Q.
  - cbn [qsrun] in E.
    destruct o as [b| | | | | | | | | | | | | | | | | | | |];
      try (destruct (qsrun false orb orb (sbit m k) t _); discriminate E).
    rewrite (@inds_resolve K (Plain b) t (fun _ => zero K)),
      (@deps_cons (Plain b) t (fun _ => zero K)) in E. cbn [resolve] in E.
    rewrite (@deps_cons (Plain b) t (fun _ => zero K)) in Hm. cbn [resolve] in Hm.
    rewrite !Nat.add_assoc in *.
    destruct (qsrun false orb orb (sbit m k) t _) as [s1|] eqn:E1; [|discriminate E].
    cbn [qsstep] in E. injection E as <-.
    cbn [plains flat_map app rev_keeps] in G. fold (plains t) in G.
    rewrite !andb_true_iff in G. destruct G as [[G1 G2] G3]. apply negb_true_iff in G1.
    rewrite forallb_forall in G2.
    assert (R : forall l, In l (breads b) -> ~ In l h).
    { intros l Hl. apply G2 in Hl. apply negb_true_iff in Hl. now apply mem_nat_false. }
    destruct (IH _ _ _ (bsafe (sbit n c i) b B) (stale b h) E1 ltac:(lia) G3) as (Q1 & Q2 & Q3).
    rewrite qnext_i, qnext_d, Q1, Q2.
    split; [lia|]. split; [lia|]. cbn [bsrun]. intros Hd Hn.
    eapply step_dual; eauto; try lia.
    + intros Db res ->. cbn [qsafe is_dep]. do 2 f_equal. lia.
    + apply dual_safe; auto.
    + replace (if is_ind b then S i else i) with (i + (if is_ind b then 1 else 0)) in Hn
        by (destruct (is_ind b); lia). exact Hn.
Qed.

(* tight *)
Variables (ps x : nat -> val).
Variable ex : bool.
Hypothesis Exact : ex = true -> forall a c : val,
  sub K (add K a c) c = a /\ add K (sub K a c) c = a.

Lemma rcopy_A q : forall arg res r (T A A' : mem) kk,
  let '(T1, _, k1) := rcopy q arg res r T A kk in
  let '(T2, _, k2) := rcopy q arg res r T A' kk in T1 = T2 /\ k1 = k2.
Proof.
  induction q; intros; cbn [rcopy]; auto. destruct (restore (res + r) T kk). apply IHq.
Qed.
Lemma raxpy_A q : forall arg a1 a2 res r (T A A' : mem) kk,
  let '(T1, _, k1) := raxpy q arg a1 a2 res r T A kk in
  let '(T2, _, k2) := raxpy q arg a1 a2 res r T A' kk in T1 = T2 /\ k1 = k2.
Proof.
  induction q; intros; cbn [raxpy]; auto. destruct (restore (res + r) T kk). apply IHq.
Qed.
Lemma rval_A (b : bop) (T A A' : mem) kk :
  let '(T1, _, k1) := rval b T A kk in
  let '(T2, _, k2) := rval b T A' kk in T1 = T2 /\ k1 = k2.
Proof.
  destruct b; cbn [rval]; try apply rcopy_A; try apply raxpy_A;
    try destruct (Nat.eqb arg res);
    repeat match goal with |- context [restore ?r ?t ?q] => destruct (restore r t q) end;
    try destruct (restore_up _ _ _ _); auto.
Qed.

Lemma tight_dual t : forall (s : fstate K) e B h gT,
  zexec ps x t s = inl e ->
  traceable ex ps x t (fi s) (fT s) -> tight_ok ex ps x t (fi s) (fT s) ->
  length (fy s) + deps t <= m ->
  rev_keeps true (resolved ps x t s) h = true ->
  let '(q, T, kk) := qtrun false orb orb (sbit m k) t
      (mkQ A0 gz (fi s + inds t) (length (fy s) + deps t), gT, fk e) in
  qi q = fi s /\ qd q = length (fy s) /\ kk = fk s /\
  (forall l, badset ex ps x t (fi s) (fT s) l = false -> T l = fT s l) /\
  (length (fy s) <= k -> nth (k - length (fy s)) (btrun ps x (sbit n c) t s B) false = true ->
   meet h B (qA q) \/ (fi s <= c /\ qz q c = true)).
Proof.
  induction t as [|o t IH]; intros s e B h gT E Tr Ok Hm G.
  - cbn in E. injection E as <-. unfold inds, deps. cbn. rewrite !Nat.add_0_r.
    repeat split; auto; try discriminate.
    intros _ Q. destruct (k - length (fy s)); discriminate Q.
  - cbn [zexec] in E. destruct (zstep ps x o s) as [s1|] eqn:E1; [|discriminate E].
    destruct (zstep_inl _ _ _ _ E1) as (_ & _ & T1 & I1 & Y1).
    assert (K1 : fk s1 = rev (pushes (resolve (fT s) o) (fT s)) ++ fk s).
    { unfold zstep in E1. destruct (oob (fT s) o); [discriminate E1|].
      destruct (zabort (resolve (fT s) o) (fT s)); [discriminate E1|].
      injection E1 as <-. reflexivity. }
    cbn [traceable] in Tr. destruct Tr as (Okb & Rs & Np & Tr).
    cbn [tight_ok] in Ok. destruct Ok as (Sk & Sm & Nd & Ok).
    cbn [resolved rev_keeps] in G. rewrite E1 in G.
    rewrite (@deps_cons o t (fT s)) in *. rewrite (@inds_resolve K o t (fT s)).
    cbn [btrun]. rewrite E1.
    set (b := resolve (fT s) o) in *.
    rewrite !andb_true_iff in G. destruct G as [[G1 G2] G3]. apply negb_true_iff in G1.
    rewrite forallb_forall in G2.
    assert (R : forall l, In l (breads b) -> ~ In l h).
    { intros l Hl. apply G2 in Hl. apply negb_true_iff in Hl. now apply mem_nat_false. }
    assert (Ly : length (fy s1) = length (fy s) + (if is_dep b then 1 else 0)).
    { rewrite Y1, app_length. destruct b; reflexivity. }
    assert (Li : fi s1 = fi s + (if is_ind b then 1 else 0)).
    { rewrite I1. destruct (is_ind b); lia. }
    specialize (IH s1 e (btight (sbit n c (fi s)) b (fT s) B) (stale b h) gT E).
    rewrite T1, I1 in IH. specialize (IH Tr Ok ltac:(lia) G3).
    rewrite <- I1, Li in IH. rewrite Ly in IH.
    rewrite !Nat.add_assoc.
    cbn [qtrun]. destruct (qtrun false orb orb (sbit m k) t _) as [[q T] kk] eqn:EQ.
    destruct IH as (Q1 & Q2 & -> & Qv & Q3).
    unfold qtstep.
    assert (Eb : resolve T o = b).
    { rewrite <- Rs. apply resolve_pointer. intros l Hl.
      replace (fi s + (if is_ind b then 1 else 0)) with (if is_ind b then S (fi s) else fi s) in Qv
        by (destruct (is_ind b); lia).
      apply Qv. rewrite none_in_iff in Np. now apply Np. }
    rewrite Eb. unfold qtaylor. rewrite Sk.
    replace (fi s + (if is_ind b then 1 else 0)) with (if is_ind b then S (fi s) else fi s) in Qv
      by (destruct (is_ind b); lia).
    pose proof (@rval_values K ex Exact ps x (fi s) b (fT s) T T (pushes b (fT s)) (fk s) _ Okb
      ltac:(destruct b; cbn; auto using vcopy_push_len, vaxpy_push_len) Qv) as Rv.
    rewrite <- K1 in Rv. destruct (rval b T T (fk s1)) as [[T2 A2] k2]. destruct Rv as [-> Rv].
    rewrite qnext_i, qnext_d, Q1, Q2.
    split; [lia|]. split; [lia|]. split; [reflexivity|]. split; [exact Rv|].
    intros Hd Hn. eapply step_dual; eauto; try lia.
    + intros Db res Eb'. rewrite Eb'. cbn [qtight qsafe is_dep]. do 2 f_equal. lia.
    + apply dual_tight; auto. intros l Hl. apply Rv.
      rewrite none_in_iff in Nd. apply Nd. exact Hl.
Qed.
End Dual.
