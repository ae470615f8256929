(* Proofs for C18. *)
Require Import List ZArith Bool Arith Lia.
Require Import Verif.AdModel Verif.AdSpec Verif.SpModel Verif.SpSpec.
Import ListNotations.
Set Implicit Arguments.

(* ------------------------------------------------------------------ *)
(* Index domains as sets.                                               *)

Lemma merge_in j : forall a b, In j (merge a b) <-> In j a \/ In j b.
Proof.
  induction a as [|x a IHa]; intros b.
  - destruct b; cbn; tauto.
  - induction b as [|y b IHb]; [cbn; tauto|].
    change (merge (x :: a) (y :: b)) with
      (if x <? y then x :: merge a (y :: b)
       else if x =? y then y :: merge a b else y :: merge (x :: a) b).
    destruct (x <? y) eqn:E; [|destruct (x =? y) eqn:E2].
    + cbn [In]. rewrite IHa. cbn [In]. tauto.
    + apply Nat.eqb_eq in E2. subst y. cbn [In]. rewrite IHa. tauto.
    + cbn [In]. rewrite IHb. cbn [In]. tauto.
Qed.

Lemma dset_same D l d : dset D l d l = d.
Proof. unfold dset. now rewrite Nat.eqb_refl. Qed.
Lemma dset_other D l d k : k <> l -> dset D l d k = D k.
Proof. intros H. unfold dset. apply Nat.eqb_neq in H. now rewrite H. Qed.

Lemma copy_same res arg D : didx (copy_dom res arg D res) = didx (D arg).
Proof. unfold copy_dom. now rewrite dset_same. Qed.
Lemma copy_other res arg D l : l <> res -> copy_dom res arg D l = D l.
Proof. intros. unfold copy_dom. now rewrite dset_other. Qed.

Lemma merge2_other res arg D l : l <> res -> merge_2 res arg D l = D l.
Proof.
  intros. unfold merge_2. destruct (_ =? 0); [now apply copy_other|].
  destruct (res =? arg); auto. now rewrite dset_other.
Qed.
Lemma merge2_in res arg D j :
  In j (didx (merge_2 res arg D res)) <-> In j (didx (D res)) \/ In j (didx (D arg)).
Proof.
  unfold merge_2. destruct (length (didx (D res)) =? 0) eqn:E.
  - rewrite copy_same. apply Nat.eqb_eq in E. destruct (didx (D res)); cbn; [tauto|discriminate].
  - destruct (res =? arg) eqn:E2.
    + apply Nat.eqb_eq in E2. subst. tauto.
    + rewrite dset_same. cbn [didx]. apply merge_in.
Qed.

Lemma combine2_other res a1 a2 D l : l <> res -> combine_2 res a1 a2 D l = D l.
Proof.
  intros. unfold combine_2. rewrite merge2_other; auto.
  destruct (res =? a1); auto. now apply copy_other.
Qed.
Lemma combine2_in res a1 a2 D j : (a2 =? res) && negb (a1 =? a2) = false ->
  In j (didx (combine_2 res a1 a2 D res)) <-> In j (didx (D a1)) \/ In j (didx (D a2)).
Proof.
  intros G. unfold combine_2. rewrite merge2_in.
  destruct (res =? a1) eqn:E.
  - apply Nat.eqb_eq in E. subst. tauto.
  - apply Nat.eqb_neq in E. rewrite copy_same.
    assert (a2 <> res).
    { intros ->. rewrite Nat.eqb_refl in G. cbn in G.
      apply negb_false_iff, Nat.eqb_eq in G. congruence. }
    rewrite copy_other by auto. tauto.
Qed.
Lemma merge3_other res a1 a2 D l : l <> res -> merge_3 res a1 a2 D l = D l.
Proof. intros. unfold merge_3. rewrite !merge2_other; auto. Qed.
Lemma merge3_in res a1 a2 D j :
  In j (didx (merge_3 res a1 a2 D res)) <->
  In j (didx (D res)) \/ In j (didx (D a1)) \/ In j (didx (D a2)).
Proof.
  unfold merge_3. rewrite !merge2_in. destruct (Nat.eq_dec a2 res) as [->|N].
  - rewrite merge2_in. tauto.
  - rewrite merge2_other by auto. tauto.
Qed.

(* ------------------------------------------------------------------ *)
(* The arrays are long enough.                                          *)

Definition dfits (D : doms) : Prop := forall l, length (didx (D l)) <= dcap (D l) /\ 1 <= dcap (D l).

Lemma merge_length : forall a b, length (merge a b) <= length a + length b.
Proof.
  induction a as [|x a IHa]; intros b.
  - destruct b; cbn; lia.
  - induction b as [|y b IHb]; [cbn; lia|].
    change (merge (x :: a) (y :: b)) with
      (if x <? y then x :: merge a (y :: b)
       else if x =? y then y :: merge a b else y :: merge (x :: a) b).
    destruct (x <? y); [|destruct (x =? y)]; cbn [length].
    + specialize (IHa (y :: b)). cbn [length] in IHa. lia.
    + specialize (IHa b). lia.
    + cbn [length] in IHb. lia.
Qed.

Lemma fits_set D l d : dfits D -> length (didx d) <= dcap d -> 1 <= dcap d -> dfits (dset D l d).
Proof. intros F H H1 k. unfold dset. destruct (k =? l); auto. Qed.
Lemma fits_copy res arg D : dfits D -> dfits (copy_dom res arg D).
Proof.
  intros F. unfold copy_dom. apply fits_set; auto; cbn [didx dcap].
  - destruct (_ <? _) eqn:E; [lia|]. apply Nat.ltb_ge in E. lia.
  - destruct (_ <? _) eqn:E; [apply Nat.ltb_lt in E; lia|]. apply (F res).
Qed.
Lemma fits_merge2 res arg D : dfits D -> dfits (merge_2 res arg D).
Proof.
  intros F. unfold merge_2. destruct (_ =? 0) eqn:E0; [now apply fits_copy|].
  destruct (res =? arg); auto. apply Nat.eqb_neq in E0.
  pose proof (merge_length (didx (D res)) (didx (D arg))) as L.
  apply fits_set; auto; cbn [didx dcap]; destruct (_ <? _) eqn:E.
  - lia.
  - apply Nat.ltb_ge in E. lia.
  - lia.
  - apply (F res).
Qed.
Lemma fits_combine2 res a1 a2 D : dfits D -> dfits (combine_2 res a1 a2 D).
Proof.
  intros F. unfold combine_2. apply fits_merge2.
  destruct (res =? a1); auto. now apply fits_copy.
Qed.
Lemma fits_merge3 res a1 a2 D : dfits D -> dfits (merge_3 res a1 a2 D).
Proof. intros F. unfold merge_3. now repeat apply fits_merge2. Qed.
Lemma fits_clear res D : dfits D -> dfits (clear res D).
Proof. intros F. apply fits_set; cbn; auto; [lia|apply F]. Qed.
Lemma fits_single res i D : dfits D -> dfits (single res i D).
Proof. intros F. apply fits_set; cbn; auto; apply F. Qed.

Section Proofs.
Variable K : Arith.
Notation val := (V K).
Notation mem := (mem K).
Notation op := (op K).
Notation bop := (bop K).

Lemma fits_dcopy n arg res q D : dfits D -> dfits (dcopy n arg res q D).
Proof. revert q D. induction n; intros q D F; cbn [dcopy]; auto. apply IHn. now apply fits_copy. Qed.
Lemma fits_ddot n a1 a2 res q D : dfits D -> dfits (ddot n a1 a2 res q D).
Proof. revert q D. induction n; intros q D F; cbn [ddot]; auto. apply IHn. now apply fits_merge3. Qed.
Lemma fits_daxpy n arg a1 a2 res q D : dfits D -> dfits (daxpy n arg a1 a2 res q D).
Proof.
  revert q D. induction n; intros q D F; cbn [daxpy]; auto.
  apply IHn. apply fits_merge2. now apply fits_combine2.
Qed.

Lemma fits_dsafe i b D : dfits D -> dfits (dsafe (K:=K) i b D).
Proof.
  intros F. destruct b; cbn [dsafe]; auto using fits_copy, fits_merge2, fits_combine2,
    fits_merge3, fits_clear, fits_single, fits_dcopy, fits_ddot, fits_daxpy.
Qed.
Lemma fits_dtight i b T D : dfits D -> dfits (dtight (K:=K) i b T D).
Proof.
  intros F. destruct b; cbn [dtight]; auto using fits_dsafe, fits_copy, fits_clear;
    repeat match goal with |- context [if ?c then _ else _] => destruct c end;
    auto using fits_copy, fits_combine2.
Qed.

(* ------------------------------------------------------------------ *)
(* Two sweeps at x and x'.                                              *)

Variables (ps x x' : nat -> val).

Definition inv (P : nat -> Prop) (D : doms) (T T' : mem) : Prop :=
  forall l, P l -> (forall j, In j (didx (D l)) -> x j = x' j) -> T l = T' l.

Lemma inv_w (P : nat -> Prop) D D' (T T' : mem) res v v' :
  inv P D T T' -> (forall l, l <> res -> D' l = D l) ->
  ((forall j, In j (didx (D' res)) -> x j = x' j) -> v = v') ->
  inv (fun l => l = res \/ P l) D' (upd T res v) (upd T' res v').
Proof.
  intros I HD Hv l Hl Hd. unfold upd. destruct (l =? res) eqn:E.
  - apply Nat.eqb_eq in E. subst l. auto.
  - apply Nat.eqb_neq in E. rewrite HD in Hd by auto. apply I; auto.
    destruct Hl; [contradiction|auto].
Qed.
Lemma inv_sub (P Q : nat -> Prop) D T T' : inv P D T T' -> (forall l, Q l -> P l) -> inv Q D T T'.
Proof. intros I H l Hl. apply I. auto. Qed.

(* a value that is written without the domain of the location being touched *)
Lemma inv_keep (P : nat -> Prop) D (T T' : mem) res v v' :
  inv P D T T' ->
  ((forall j, In j (didx (D res)) -> x j = x' j) -> v = v') ->
  inv (fun l => l = res \/ P l) D (upd T res v) (upd T' res v').
Proof. intros I H. eapply inv_w; eauto. Qed.

Definition after (P : nat -> Prop) (b : bop) : nat -> Prop :=
  match b with
  | SinOp _ _ a2 res | CosOp _ _ a2 res => fun l => l = res \/ (P l /\ l <> a2)
  | TakeStock _ _ _ _ | SetRef _ _ _ => P
  | _ => fun l => In l (bwrites b) \/ P l
  end.

Lemma inv_dcopy n arg res : forall q P D T T', inv P D T T' ->
  (forall l, In l (seq (arg + q) n) -> P l) ->
  inv (fun l => In l (seq (res + q) n) \/ P l) (dcopy n arg res q D)
      (vcopy n arg res q T) (vcopy n arg res q T').
Proof.
  induction n as [|n IH]; intros q P D T T' I R; cbn [dcopy vcopy seq].
  - eapply inv_sub; eauto. cbn. tauto.
  - eapply inv_sub; [eapply IH|].
    + eapply inv_w; eauto.
      * intros. now apply copy_other.
      * rewrite copy_same. intros. apply I; auto. apply R. cbn. auto.
    + intros l Hl. right. apply R. cbn [seq]. right. rewrite <- Nat.add_succ_r in *. exact Hl.
    + cbn. intros l H. replace (S (res + q)) with (res + S q) in H by lia. intuition.
Qed.
Lemma inv_ddot n a1 a2 res : forall q (P : nat -> Prop) D T T', inv P D T T' -> P res ->
  (forall l, In l (seq (a1 + q) n ++ seq (a2 + q) n) -> P l) ->
  inv P (ddot n a1 a2 res q D) (vdot n a1 a2 res q T) (vdot n a1 a2 res q T').
Proof.
  induction n as [|n IH]; intros q P D T T' I Pr R; cbn [ddot vdot]; auto.
  apply IH; auto.
  - eapply inv_sub; [eapply inv_w; [exact I| |]|].
    + intros. now apply merge3_other.
    + intros H. assert (forall l, (l = res \/ l = a1 + q \/ l = a2 + q) -> T l = T' l) as E.
      { intros l Hl. apply I.
        - destruct Hl as [->|Hl]; auto. apply R. apply in_app_iff. cbn [seq In].
          intuition.
        - intros j Hj. apply H. rewrite merge3_in. intuition; subst; auto. }
      rewrite !E by auto. reflexivity.
    + cbn. auto.
  - intros l Hl. apply R. cbn [seq]. rewrite in_app_iff in *. cbn [In].
    replace (S (a1 + q)) with (a1 + S q) by lia. replace (S (a2 + q)) with (a2 + S q) by lia.
    intuition.
Qed.
Lemma inv_daxpy n arg a1 a2 res : a1 <> res -> a2 <> res ->
  forall q P D T T', inv P D T T' ->
  P arg -> (forall l, In l (seq (a1 + q) n ++ seq (a2 + q) n) -> P l) ->
  inv (fun l => In l (seq (res + q) n) \/ P l) (daxpy n arg a1 a2 res q D)
      (vaxpy n arg a1 a2 res q T) (vaxpy n arg a1 a2 res q T').
Proof.
  intros N1 N2. induction n as [|n IH]; intros q P D T T' I Pa R; cbn [daxpy vaxpy seq].
  - eapply inv_sub; eauto. cbn. tauto.
  - eapply inv_sub; [eapply IH|].
    + eapply inv_w; eauto.
      * intros. rewrite merge2_other, combine2_other; auto.
      * intros H.
        assert (a2 + q <> res + q) by lia.
        assert (forall j, In j (didx (D arg)) \/ In j (didx (D (a1 + q)))
                          \/ In j (didx (D (a2 + q))) -> x j = x' j) as Hx.
        { intros j Hj. apply H. rewrite merge2_in, combine2_in, combine2_other by
            (auto; apply andb_false_iff; left; apply Nat.eqb_neq; lia). tauto. }
        rewrite (I arg), (I (a1 + q)), (I (a2 + q)); auto.
        -- apply R. apply in_app_iff. cbn. auto.
        -- apply R. apply in_app_iff. cbn. auto.
    + right. exact Pa.
    + intros l Hl. right. apply R. cbn [seq]. rewrite in_app_iff in *. cbn [In].
      replace (S (a1 + q)) with (a1 + S q) by lia. replace (S (a2 + q)) with (a2 + S q) by lia.
      intuition.
    + cbn. intros l H. replace (S (res + q)) with (res + S q) in H by lia. intuition.
Qed.
Lemma inv_stock n : forall res d P D T T', inv P D T T' ->
  inv P D (stock n res d T) (stock n res d T').
Proof.
  induction n as [|n IH]; intros res d P D T T' I; cbn [stock]; auto.
  apply IH. eapply inv_sub; [eapply inv_keep; eauto|]. cbn. auto.
Qed.

Lemma single_same res i D : didx (single res i D res) = [i].
Proof. unfold single. now rewrite dset_same. Qed.
Lemma clear_other res D l : l <> res -> clear res D l = D l.
Proof. apply dset_other. Qed.
Lemma single_other res i D l : l <> res -> single res i D l = D l.
Proof. apply dset_other. Qed.

Lemma upd_off (T : mem) a v l : a <> l -> upd T a v l = T l.
Proof. intros H. unfold upd. apply not_eq_sym, Nat.eqb_neq in H. now rewrite H. Qed.
Lemma app_inv_len A (a b c d : list A) : length a = length c -> a ++ b = c ++ d -> a = c /\ b = d.
Proof.
  revert c. induction a as [|y a IH]; intros [|z c] H E; cbn in *; try discriminate; auto.
  injection E as -> E. destruct (IH c) as [-> ->]; auto.
Qed.

Ltac other := intros; first
  [ now apply copy_other | now apply merge2_other | now apply combine2_other
  | now apply merge3_other | now apply clear_other | now apply single_other | reflexivity ].

Ltac one :=
  match goal with
  | I : inv _ _ ?T ?T', R : forall l, _ -> _ |- _ =>
    eapply inv_sub;
    [eapply inv_w; [exact I | other |];
     let H := fresh "H" in intros H;
     rewrite ?copy_same, ?single_same in H;
     repeat match goal with
     | |- context [T ?l] => rewrite (I l)
     end; auto;
     try (apply R; cbn; tauto);
     try (intros; apply H; rewrite ?merge2_in, ?merge3_in, ?combine2_in by assumption; tauto)
    | cbn; intuition]
  end.

Lemma dsafe_step b i P D T T' :
  inv P D T T' -> (forall l, In l (breads b) -> P l) -> loses false b = false ->
  bchoices false b T = bchoices false b T' ->
  match b with SinOp _ a1 a2 _ | CosOp _ a1 a2 _ => a2 <> a1 | _ => True end ->
  inv (after P b) (dsafe i b D) (zval ps x i b T) (zval ps x' i b T').
Proof.
  intros I R L C Sn.
  destruct b; cbn [after dsafe zval bwrites]; cbn [breads] in R; cbn [loses] in L; cbn [bchoices] in C;
  match goal with
  | |- inv _ _ (vcopy _ _ _ _ _) _ =>
      eapply inv_sub; [eapply inv_dcopy; eauto|];
      [intros; rewrite Nat.add_0_r in *; auto | cbn; intros; rewrite Nat.add_0_r; auto]
  | |- inv _ _ (stock _ _ _ _) _ => now apply inv_stock
  | _ => idtac
  end.
  all: try (eapply inv_sub; [exact I|cbn; tauto]).
  all: try (eapply inv_sub; [eapply inv_keep; [exact I|reflexivity]|cbn; tauto]).
  all: try (injection C as C; rewrite C).
  all: try one.
  - apply H. cbn. auto.
  - rewrite (upd_off T), (upd_off T') by auto.
    apply inv_sub with (P := fun l => l = res \/ (P l /\ l <> a2)); [|tauto].
    eapply inv_w with (D := D); [|other|].
    + intros l [Hl Hn] Hd. unfold upd. apply Nat.eqb_neq in Hn. rewrite Hn. now apply I.
    + intros H. rewrite copy_same in H. rewrite (I a1); auto. apply R; cbn; auto.
  - rewrite (upd_off T), (upd_off T') by auto.
    apply inv_sub with (P := fun l => l = res \/ (P l /\ l <> a2)); [|tauto].
    eapply inv_w with (D := D); [|other|].
    + intros l [Hl Hn] Hd. unfold upd. apply Nat.eqb_neq in Hn. rewrite Hn. now apply I.
    + intros H. rewrite copy_same in H. rewrite (I a1); auto. apply R; cbn; auto.
  - destruct (ltb K (zero K) (T' arg)).
    + one.
    + intros l Hl Hd. destruct (Nat.eq_dec l res) as [->|N].
      * apply I; [apply R; cbn; auto|]. intros. apply Hd. rewrite merge2_in. auto.
      * rewrite merge2_other in Hd by auto. apply I; auto. cbn in Hl. intuition congruence.
  - destruct (leb K (zero K) (T' arg)).
    + one.
    + intros l Hl Hd. destruct (Nat.eq_dec l res) as [->|N].
      * apply I; [apply R; cbn; auto|]. intros. apply Hd. rewrite merge2_in. auto.
      * rewrite merge2_other in Hd by auto. apply I; auto. cbn in Hl. intuition congruence.
  - eapply inv_sub; [apply inv_ddot with (P := fun l => l = res \/ P l)|].
    + eapply inv_w; [exact I|other|auto].
    + auto.
    + rewrite !Nat.add_0_r. auto.
    + cbn. intuition.
  - destruct size as [|n].
    + cbn. eapply inv_sub; [exact I|cbn; tauto].
    + change (negb (S n =? 0)) with true in L. rewrite andb_true_l in L.
      apply orb_false_iff in L. destruct L as [L1 L2].
      apply Nat.eqb_neq in L1, L2.
      eapply inv_sub; [eapply inv_daxpy; eauto|].
      * apply R. now left.
      * rewrite !Nat.add_0_r. intros. apply R. now right.
      * rewrite Nat.add_0_r. auto.
Qed.

Variable asym : forall a b, ltb K a b = true -> ltb K b a = false.

Lemma dtight_step b i P D T T' :
  inv P D T T' -> (forall l, In l (breads b) -> P l) -> loses true b = false ->
  bchoices true b T = bchoices true b T' ->
  match b with SinOp _ a1 a2 _ | CosOp _ a1 a2 _ => a2 <> a1 | _ => True end ->
  inv (after P b) (dtight i b T D) (zval ps x i b T) (zval ps x' i b T').
Proof.
  intros I R L C Sn.
  destruct b; try (apply dsafe_step; auto; fail);
    cbn [after dtight zval bwrites]; cbn [breads] in R; cbn [loses] in L; cbn [bchoices] in C;
    try discriminate L; injection C as C; try rewrite <- C.
  - unfold vmin. rewrite <- C.
    destruct (ltb K (T a1) (T a2)) eqn:E1.
    + rewrite (asym _ _ E1). one.
    + destruct (ltb K (T a2) (T a1)) eqn:E2; one.
  - eapply inv_sub; [eapply inv_w; [exact I|other|auto]|cbn; intuition].
  - eapply inv_sub; [eapply inv_w; [exact I|other|auto]|cbn; intuition].
  - destruct (ltb K (zero K) (T arg)); one.
  - destruct (leb K (zero K) (T arg)); one.
Qed.

(* ------------------------------------------------------------------ *)
(* Whole sweeps.                                                        *)

Lemma resolve_same tight o (T T' : mem) : ochoices tight o T = ochoices tight o T' ->
  resolve T o = resolve T' o /\ oob T o = oob T' o /\
  bchoices tight (resolve T o) T = bchoices tight (resolve T' o) T'.
Proof.
  unfold ochoices. intros H.
  destruct o; cbn [pointer map app] in H; [cbn [resolve oob]; auto|..];
    pose proof (f_equal (@tl _) H) as H1; pose proof (f_equal (@hd_error _) H) as H0;
    clear H; cbn [tl hd_error] in H0, H1; injection H0 as H0;
    (split; [|split]); auto; cbn [resolve oob]; now rewrite H0.
Qed.

Lemma zstep_done (o : op) (y : nat -> val) (s e : fstate K) : zstep ps y o s = inr (Done e) -> (frc e < 0)%Z.
Proof.
  unfold zstep. destruct (oob (fT s) o); [discriminate|].
  destruct (zabort (resolve (fT s) o) (fT s)) eqn:E; [|discriminate].
  intros [= <-]. cbn. destruct (resolve (fT s) o); try discriminate E; cbn in E.
  - destruct (cmp_bad K c (fT s arg)); [injection E as <-; lia|discriminate].
  - destruct (eqb K x0 (fT s a1)); [discriminate|injection E as <-; lia].
Qed.
Lemma zrun_step (o : op) (y : nat -> val) t (s e : fstate K) : zrun ps y (o :: t) s = Done e -> (0 <= frc e)%Z ->
  exists s1, zstep ps y o s = inl s1 /\ zrun ps y t s1 = Done e.
Proof.
  cbn [zrun]. destruct (zstep ps y o s) as [s1|[e'|]] eqn:E; try discriminate; eauto.
  intros [= ->] H. apply zstep_done in E. lia.
Qed.
Lemma zstep_inl (o : op) (y : nat -> val) (s s1 : fstate K) : zstep ps y o s = inl s1 ->
  oob (fT s) o = false /\ zabort (resolve (fT s) o) (fT s) = None /\
  fT s1 = zval ps y (fi s) (resolve (fT s) o) (fT s) /\
  fi s1 = (if is_ind (resolve (fT s) o) then S (fi s) else fi s) /\
  fy s1 = fy s ++ out_of (resolve (fT s) o) (fT s).
Proof.
  unfold zstep. destruct (oob (fT s) o); [discriminate|].
  destruct (zabort (resolve (fT s) o) (fT s)); [discriminate|].
  intros [= <-]. cbn. auto.
Qed.

Definition agree (rows : list (list nat)) (y y' : list val) : Prop :=
  length y = length rows /\ length y' = length rows /\
  forall k row, nth_error rows k = Some row -> (forall j, In j row -> x j = x' j) ->
    nth_error y k = nth_error y' k.

Lemma agree_app rows y y' r v v' : agree rows y y' ->
  ((forall j, In j r -> x j = x' j) -> v = v') -> agree (rows ++ [r]) (y ++ [v]) (y' ++ [v']).
Proof.
  intros (L1 & L2 & A) H. unfold agree. rewrite !app_length, L1, L2. cbn.
  do 2 (split; [lia|]). intros k row E Hj.
  destruct (Nat.lt_ge_cases k (length rows)) as [Hk|Hk].
  - rewrite nth_error_app1 in E by auto. rewrite !nth_error_app1 by lia. eauto.
  - rewrite nth_error_app2 in E by auto. rewrite !nth_error_app2, L1, L2 by lia.
    destruct (k - length rows) as [|k']; [|cbn in E; destruct k'; discriminate].
    cbn in *. injection E as ->. now rewrite H.
Qed.
Lemma agree_step b P D T T' rows y y' : inv P D T T' -> (forall l, In l (breads b) -> P l) ->
  agree rows y y' -> agree (rows ++ row_of b D) (y ++ out_of b T) (y' ++ out_of b T').
Proof.
  intros I R A. destruct b; cbn [row_of out_of]; rewrite ?app_nil_r; auto.
  apply agree_app; auto. intros H. apply I; auto. apply R. cbn. auto.
Qed.

Lemma mem_nat_iff l s : mem_nat l s = true <-> In l s.
Proof.
  unfold mem_nat. rewrite existsb_exists. split.
  - intros (k & Hk & E). apply Nat.eqb_eq in E. now subst.
  - intros H. exists l. split; auto. apply Nat.eqb_refl.
Qed.
Lemma helpers_after b h l : ~ In l (helpers b h) -> after (fun l => ~ In l h) b l.
Proof.
  assert (N : forall ws, ~ In l (filter (fun l => negb (mem_nat l ws)) h) ->
              In l ws \/ ~ In l h).
  { intros ws. rewrite filter_In. destruct (in_dec Nat.eq_dec l ws); auto.
    intros H. right. intros Hl. apply H. split; auto. apply negb_true_iff.
    apply not_true_is_false. rewrite mem_nat_iff. auto. }
  assert (Z : forall a2 res, ~ In l (filter (fun l => negb (l =? res)) (a2 :: h)) ->
              l = res \/ ~ In l h /\ l <> a2).
  { intros a2 res. rewrite filter_In. destruct (Nat.eq_dec l res); auto.
    apply Nat.eqb_neq in n. rewrite n. cbn. intros H. right. split; intuition. }
  destruct b; intros H; cbn [helpers after] in *; auto.
Qed.
Lemma patternable_inv tight b bs h : patternable (K:=K) tight (b :: bs) h = true ->
  loses tight b = false /\ (forall l, In l (breads b) -> ~ In l h) /\
  match b with SinOp _ a1 a2 _ | CosOp _ a1 a2 _ => a2 <> a1 | _ => True end /\
  patternable tight bs (helpers b h) = true.
Proof.
  cbn [patternable]. rewrite !andb_true_iff. intros (((L & R) & S) & N).
  apply negb_true_iff in L. rewrite forallb_forall in R. split; auto.
  split. { intros l Hl. apply R in Hl. apply negb_true_iff in Hl.
           rewrite <- mem_nat_iff, Hl. discriminate. }
  split; auto.
  destruct b; auto; apply negb_true_iff, Nat.eqb_neq in S; auto.
Qed.

Lemma safe_sim t : forall D rows h s s' e e' rows',
  srun t (fi s) D rows = SRows rows' -> fi s = fi s' ->
  inv (fun l => ~ In l h) D (fT s) (fT s') -> agree rows (fy s) (fy s') ->
  patternable false (resolved ps x t s) h = true ->
  choices false ps x t s = choices false ps x' t s' ->
  zrun ps x t s = Done e -> zrun ps x' t s' = Done e' -> (0 <= frc e)%Z -> (0 <= frc e')%Z ->
  agree rows' (fy e) (fy e').
Proof.
  induction t as [|o t IH]; intros D rows h s s' e e' rows' SR FI I A PA CH Z Z' F F'.
  - cbn in *. injection SR as <-. injection Z as <-. injection Z' as <-. auto.
  - destruct (zrun_step o x t s Z F) as (s1 & E1 & Z1). destruct (zrun_step o x' t s' Z' F') as (s2 & E2 & Z2).
    cbn [resolved choices] in PA, CH. rewrite E1 in PA, CH. rewrite E2 in CH.
    destruct o as [b| | | | | | | | | | | | | | | | | | | |]; try discriminate SR.
    cbn [resolve ochoices pointer map app] in PA, CH. unfold ochoices in CH.
    cbn [pointer map app resolve] in CH.
    destruct (zstep_inl _ _ _ E1) as (_ & _ & T1 & I1 & Y1).
    destruct (zstep_inl _ _ _ E2) as (_ & _ & T2 & I2 & Y2). cbn [resolve] in *.
    destruct (patternable_inv _ _ _ _ PA) as (PL & PR & PS & PN).
    assert (CB : bchoices false b (fT s) = bchoices false b (fT s') /\
                 choices false ps x t s1 = choices false ps x' t s2).
    { assert (length (bchoices false b (fT s)) = length (bchoices false b (fT s'))) as LN
        by (destruct b; reflexivity).
      apply app_inv_len in CH; auto. }
    destruct CB as [CB CT].
    assert (SR1 : srun t (fi s1) (dsafe (fi s) b D) (rows ++ row_of b D) = SRows rows').
    { rewrite I1. cbn [srun] in SR. destruct b; auto; discriminate SR. }
    apply (IH _ _ (helpers b h) s1 s2 e e' rows' SR1); auto.
    + rewrite I1, I2, FI. reflexivity.
    + rewrite T1, T2, <- FI. eapply inv_sub; [apply dsafe_step; eauto|].
      apply helpers_after.
    + rewrite Y1, Y2. eapply agree_step; eauto.
Qed.

Lemma tight_T b i T : loses true b = false -> zval_tight ps x i b T = zval ps x i b T.
Proof. intros L. destruct b; cbn in *; auto; discriminate. Qed.

Lemma tight_sim t : forall D rows h s s' e e' rows',
  trow ps x t (fi s) (fT s) D rows = SRows rows' -> fi s = fi s' ->
  inv (fun l => ~ In l h) D (fT s) (fT s') -> agree rows (fy s) (fy s') ->
  patternable true (resolved ps x t s) h = true ->
  choices true ps x t s = choices true ps x' t s' ->
  zrun ps x t s = Done e -> zrun ps x' t s' = Done e' -> (0 <= frc e)%Z -> (0 <= frc e')%Z ->
  agree rows' (fy e) (fy e').
Proof.
  induction t as [|o t IH]; intros D rows h s s' e e' rows' SR FI I A PA CH Z Z' F F'.
  - cbn in *. injection SR as <-. injection Z as <-. injection Z' as <-. auto.
  - destruct (zrun_step o x t s Z F) as (s1 & E1 & Z1).
    destruct (zrun_step o x' t s' Z' F') as (s2 & E2 & Z2).
    cbn [resolved choices] in PA, CH. rewrite E1 in PA, CH. rewrite E2 in CH.
    destruct (zstep_inl _ _ _ E1) as (O1 & A1 & T1 & I1 & Y1).
    destruct (zstep_inl _ _ _ E2) as (O2 & A2 & T2 & I2 & Y2).
    assert (CO : ochoices true o (fT s) = ochoices true o (fT s') /\
                 choices true ps x t s1 = choices true ps x' t s2).
    { apply app_inv_len in CH; auto. unfold ochoices. rewrite !app_length, !map_length.
      f_equal. destruct o as [b| | | | | | | | | | | | | | | | | | | |];
        try destruct b; reflexivity. }
    destruct CO as [CO CT].
    destruct (resolve_same _ _ _ _ CO) as (RS & _ & CB).
    rewrite <- RS in *. set (b := resolve (fT s) o) in *.
    destruct (patternable_inv _ _ _ _ PA) as (PL & PR & PS & PN).
    assert (SR1 : trow ps x t (fi s1) (fT s1) (dtight (fi s) b (fT s) D) (rows ++ row_of b D) = SRows rows').
    { rewrite I1, T1, <- tight_T by auto. cbn [trow] in SR. rewrite O1 in SR. fold b in SR.
      rewrite A1 in SR. destruct b; auto; discriminate SR. }
    apply (IH _ _ (helpers b h) s1 s2 e e' rows' SR1); auto.
    + rewrite I1, I2, FI. reflexivity.
    + rewrite T1, T2, <- FI. eapply inv_sub; [apply dtight_step; eauto|].
      apply helpers_after.
    + rewrite Y1, Y2. eapply agree_step; eauto.
Qed.
End Proofs.
