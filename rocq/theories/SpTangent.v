(* C18 for derivatives: what fos_forward returns outside the pattern is zero. *)
From Coq Require Import List ZArith Bool Arith Lia Reals Lra.
Require Import Verif.AdModel Verif.AdSpec Verif.AdReal Verif.SpModel Verif.SpSpec Verif.SpProofs.
Import ListNotations.
Set Implicit Arguments.
Unset Asymmetric Patterns.
Local Open Scope R_scope.

(* pow(x,c) is only evaluated at x <> 0 (at x = 0 the library returns infinities
   and NaN, which are not real numbers). *)
Fixpoint pow_regular (bs : list (bop reals)) (Ts : list (mem reals)) : Prop :=
  match bs, Ts with
  | b :: bs', T :: Ts' =>
      match b with PowOp _ arg _ _ => T arg <> 0 | _ => True end /\ pow_regular bs' Ts'
  | _, _ => True
  end.
(* the values before each operation of a sweep *)
Fixpoint states (ps x : nat -> R) (t : list (op reals)) (s : fstate reals) : list (mem reals) :=
  match t with
  | [] => []
  | o :: t' =>
      fT s :: match @zstep reals ps x o s with
              | inl s' => states ps x t' s'
              | inr _ => []
              end
  end.
Definition no_pow_at_zero (ps x : nat -> R) (g : mem reals) (t : list (op reals)) : Prop :=
  pow_regular (@operations reals ps x g t) (states ps x t (mkF g 0 [] 3%Z [])).

Section Tangent.
Variables (ps x v : nat -> R).
Notation memR := (mem reals).

Definition zinv (P : nat -> Prop) (D : doms) (A : memR) : Prop :=
  forall l, P l -> (forall j, In j (didx (D l)) -> v j = 0) -> A l = 0.

Lemma zinv_w (P : nat -> Prop) D D' (A : memR) res d :
  zinv P D A -> (forall l, l <> res -> D' l = D l) ->
  ((forall j, In j (didx (D' res)) -> v j = 0) -> d = 0) ->
  zinv (fun l => l = res \/ P l) D' (@upd reals A res d).
Proof.
  intros I HD Hv l Hl Hd. unfold upd. destruct (l =? res)%nat eqn:E.
  - apply Nat.eqb_eq in E. subst l. auto.
  - apply Nat.eqb_neq in E. rewrite HD in Hd by auto. apply I; auto.
    destruct Hl; [contradiction|auto].
Qed.
Lemma zinv_sub (P Q : nat -> Prop) D A : zinv P D A -> (forall l, Q l -> P l) -> zinv Q D A.
Proof. intros I H l Hl. apply I. auto. Qed.

Lemma zinv_dcopy n arg res : forall q P D A, zinv P D A ->
  (forall l, In l (seq (arg + q) n) -> P l) ->
  zinv (fun l => In l (seq (res + q) n) \/ P l) (dcopy n arg res q D) (@tcopy reals n arg res q A).
Proof.
  induction n as [|n IH]; intros q P D A I R; cbn [dcopy tcopy seq].
  - eapply zinv_sub; eauto. cbn. tauto.
  - eapply zinv_sub; [eapply IH|].
    + eapply zinv_w; eauto.
      * intros. now apply copy_other.
      * rewrite copy_same. intros. apply I; auto. apply R. cbn. auto.
    + intros l Hl. right. apply R. cbn [seq]. right. rewrite <- Nat.add_succ_r in *. exact Hl.
    + cbn. intros l H. replace (S (res + q)) with (res + S q)%nat in H by lia. intuition.
Qed.
Lemma zinv_ddot n a1 a2 res : forall q (P : nat -> Prop) D T A, zinv P D A -> P res ->
  (forall l, In l (seq (a1 + q) n ++ seq (a2 + q) n) -> P l) ->
  zinv P (ddot n a1 a2 res q D) (@tdot reals n a1 a2 res q T A).
Proof.
  induction n as [|n IH]; intros q P D T A I Pr R; cbn [ddot tdot]; auto.
  apply IH; auto.
  - eapply zinv_sub; [eapply zinv_w; [exact I| |]|].
    + intros. now apply merge3_other.
    + intros H. assert (forall l, (l = res \/ l = a1 + q \/ l = a2 + q)%nat -> A l = 0) as E.
      { intros l Hl. apply I.
        - destruct Hl as [->|Hl]; auto. apply R. apply in_app_iff. cbn [seq In].
          intuition.
        - intros j Hj. apply H. rewrite merge3_in. intuition; subst; auto. }
      cbn. rewrite !E by auto. ring.
    + cbn. auto.
  - intros l Hl. apply R. cbn [seq]. rewrite in_app_iff in *. cbn [In].
    replace (S (a1 + q)) with (a1 + S q)%nat by lia. replace (S (a2 + q)) with (a2 + S q)%nat by lia.
    intuition.
Qed.
Lemma zinv_daxpy n arg a1 a2 res : a1 <> res -> a2 <> res ->
  forall q P D T A, zinv P D A ->
  P arg -> (forall l, In l (seq (a1 + q) n ++ seq (a2 + q) n) -> P l) ->
  zinv (fun l => In l (seq (res + q) n) \/ P l) (daxpy n arg a1 a2 res q D)
      (@taxpy reals n arg a1 a2 res q T A).
Proof.
  intros N1 N2. induction n as [|n IH]; intros q P D T A I Pa R; cbn [daxpy taxpy seq].
  - eapply zinv_sub; eauto. cbn. tauto.
  - eapply zinv_sub; [eapply IH|].
    + eapply zinv_w; eauto.
      * intros. rewrite merge2_other, combine2_other; auto.
      * intros H.
        assert (a2 + q <> res + q)%nat by lia.
        assert (forall j, In j (didx (D arg)) \/ In j (didx (D (a1 + q)%nat))
                          \/ In j (didx (D (a2 + q)%nat)) -> v j = 0) as Hx.
        { intros j Hj. apply H. rewrite merge2_in, combine2_in, combine2_other by
            (auto; apply andb_false_iff; left; apply Nat.eqb_neq; lia). tauto. }
        cbn. rewrite (I arg), (I (a1 + q)%nat), (I (a2 + q)%nat); auto; try ring.
        -- apply R. apply in_app_iff. cbn. auto.
        -- apply R. apply in_app_iff. cbn. auto.
    + right. exact Pa.
    + intros l Hl. right. apply R. cbn [seq]. rewrite in_app_iff in *. cbn [In].
      replace (S (a1 + q)) with (a1 + S q)%nat by lia. replace (S (a2 + q)) with (a2 + S q)%nat by lia.
      intuition.
    + cbn. intros l H. replace (S (res + q)) with (res + S q)%nat in H by lia. intuition.
Qed.
Lemma zinv_tzero n : forall res P D A, zinv P D A -> zinv P D (@tzero reals n res A).
Proof.
  induction n as [|n IH]; intros res P D A I; cbn [tzero]; auto.
  apply IH. intros l Hl Hd. unfold upd. cbn. destruct (l =? res)%nat; auto.
Qed.

Ltac other := intros; first
  [ now apply copy_other | now apply merge2_other | now apply combine2_other
  | now apply merge3_other | now apply clear_other | now apply single_other | reflexivity ].

Ltac facts H I R :=
  repeat match goal with
  | |- context [?A ?l] =>
      match type of I with zinv _ _ A => rewrite (I l) end
  end.

Ltac one :=
  match goal with
  | I : zinv _ _ ?A, R : forall l, _ -> _ |- _ =>
    eapply zinv_sub;
    [eapply zinv_w; [exact I | other |];
     let H := fresh "H" in intros H;
     rewrite ?copy_same, ?single_same in H; cbn;
     repeat match goal with
     | |- context [A ?l] => rewrite (I l)
     end; auto; try ring;
     try (apply R; cbn; tauto);
     try (intros; apply H; rewrite ?merge2_in, ?merge3_in, ?combine2_in by assumption; tauto)
    | cbn; intuition]
  end.

Ltac lost := match goal with
  | I : zinv _ _ ?A, R : forall l, _ -> _ |- zinv _ (merge_2 ?res _ _) ?A =>
     let l := fresh "l" in let Hl := fresh in let Hd := fresh "Hd" in let N := fresh "N" in
     intros l Hl Hd; destruct (Nat.eq_dec l res) as [->|N];
     [apply I; [apply R; cbn; auto|]; intros; apply Hd; rewrite merge2_in; auto
     |rewrite merge2_other in Hd by auto; apply I; auto; cbn in Hl; intuition congruence]
  end.

Lemma pick0 p m a :
  Some (if gt0 reals 0 then p else if lt0 reals 0 then m else zero reals) = Some a -> a = 0.
Proof.
  unfold gt0, lt0. cbn. unfold Rltb. destruct (Rlt_dec 0 0); [lra|]. now intros [= <-].
Qed.
Lemma tsafe_step (b : bop reals) i P D T A :
  zinv P D A -> (forall l, In l (breads b) -> P l) -> loses false b = false ->
  match b with SinOp _ a1 a2 _ | CosOp _ a1 a2 _ => a2 <> a1
  | PowOp _ arg _ _ => T arg <> 0 | GenQuad _ _ _ _ _ _ => False | _ => True end ->
  zinv (after P b) (dsafe i b D) (@tval reals ps x v i b T A).
Proof.
  intros I R L Sn.
  destruct b; cbn [after dsafe tval bwrites]; cbn [breads] in R; cbn [loses] in L;
  match goal with
  | |- zinv _ _ (tcopy _ _ _ _ _) =>
      eapply zinv_sub; [eapply zinv_dcopy; eauto|];
      [intros; rewrite Nat.add_0_r in *; auto | cbn; intros; rewrite Nat.add_0_r; auto]
  | |- zinv _ _ (tzero _ _ _) => now apply zinv_tzero
  | _ => idtac
  end.
  all: try contradiction.
  all: try one.
  all: try (eapply zinv_sub; [exact I|cbn; tauto]).
  all: try lost.
  all: try (eapply zinv_sub; [exact I|]; intros l [[<-|[]]|Hl]; [apply R; cbn; auto|exact Hl]).
  - apply H. now left.
  - eapply zinv_sub with (P := fun l => l = res \/ (P l /\ l <> a2)); [|tauto].
    eapply zinv_w with (D := D); [|other|].
    + intros l [Hl Hn] Hd. unfold upd. apply Nat.eqb_neq in Hn. rewrite Hn. now apply I.
    + intros H. rewrite copy_same in H. cbn [mul neg reals].
      rewrite (upd_off (K:=reals)) by auto. rewrite (I a1); auto; [ring|]. apply R; cbn; auto.
  - eapply zinv_sub with (P := fun l => l = res \/ (P l /\ l <> a2)); [|tauto].
    eapply zinv_w with (D := D); [|other|].
    + intros l [Hl Hn] Hd. unfold upd. apply Nat.eqb_neq in Hn. rewrite Hn. now apply I.
    + intros H. rewrite copy_same in H. cbn [mul neg reals].
      rewrite (upd_off (K:=reals)) by auto. rewrite (I a1); auto; [ring|]. apply R; cbn; auto.
  - match goal with |- zinv _ _ (match ?e with Some r0 => _ | None => _ end) =>
      set (hs := e) end.
    assert (forall a, (hs = Some a -> A a1 = 0 -> a = 0)) as HS.
    { intros a. unfold hs. intros E Z. rewrite Z in E. unfold help_special in E.
      destruct f; try discriminate E;
        repeat match type of E with context [if eqb reals ?u ?w then _ else _] => destruct (eqb reals u w) end;
        try discriminate E; exact (pick0 _ _ E). }
    destruct hs as [r0|].
    + eapply zinv_sub; [eapply zinv_w; [exact I|other|]|cbn; intuition].
      intros H. rewrite copy_same in H. apply HS; auto. apply I; auto. apply R; cbn; auto.
    + clear HS. one.
  - destruct (eqb reals (T arg) (zero reals)) eqn:E.
    { apply Reqb_eq in E. cbn in E. contradiction. }
    one.
  - destruct (Rltb (T a2) (T a1)), (Rltb (T a1) (T a2)), (Rltb 0 0); reflexivity.
  - destruct (Rltb 0 (T arg)); reflexivity.
  - destruct (Rleb 0 (T arg)); reflexivity.
  - destruct (ltb reals (zero reals) (T arg)); [one|lost].
  - destruct (leb reals (zero reals) (T arg)); [one|lost].
  - eapply zinv_sub; [apply zinv_ddot with (P := fun l => l = res \/ P l)|].
    + eapply zinv_w; [exact I|other|auto].
    + auto.
    + rewrite !Nat.add_0_r. auto.
    + cbn. intuition.
  - destruct size as [|n].
    + cbn. eapply zinv_sub; [exact I|cbn; tauto].
    + change (negb (S n =? 0)) with true in L. rewrite andb_true_l in L.
      apply orb_false_iff in L. destruct L as [L1 L2].
      apply Nat.eqb_neq in L1, L2.
      eapply zinv_sub; [eapply zinv_daxpy; eauto|].
      * apply R. now left.
      * rewrite !Nat.add_0_r. intros. apply R. now right.
      * rewrite Nat.add_0_r. auto.
Qed.

Lemma ttight_step (b : bop reals) i P D T A :
  zinv P D A -> (forall l, In l (breads b) -> P l) -> loses true b = false ->
  match b with SinOp _ a1 a2 _ | CosOp _ a1 a2 _ => a2 <> a1
  | PowOp _ arg _ _ => T arg <> 0 | GenQuad _ _ _ _ _ _ => False | _ => True end ->
  zinv (after P b) (@dtight reals i b T D) (@tval reals ps x v i b T A).
Proof.
  intros I R L Sn.
  destruct b; try (apply tsafe_step; auto; fail);
    cbn [after dtight tval bwrites]; cbn [breads] in R; cbn [loses] in L;
    try discriminate L.
  - change (ltb reals) with Rltb. destruct (Rltb (T a1) (T a2)) eqn:E1.
    + replace (Rltb (T a2) (T a1)) with false.
      2:{ symmetry. apply Rltb_lt in E1. unfold Rltb. destruct (Rlt_dec (T a2) (T a1)); auto. lra. }
      one.
    + destruct (Rltb (T a2) (T a1)) eqn:E2; [one|].
      destruct (Rltb (A a2) (A a1)); one.
  - one.
  - one.
  - destruct (ltb reals (zero reals) (T arg)); one.
  - destruct (leb reals (zero reals) (T arg)); one.
Qed.

Definition zagree (rows : list (list nat)) (yd : list R) : Prop :=
  length yd = length rows /\
  forall k row, nth_error rows k = Some row -> (forall j, In j row -> v j = 0) ->
    nth_error yd k = Some 0.
Lemma zagree_step b P D A rows yd : zinv P D A -> (forall l, In l (breads b) -> P l) ->
  zagree rows yd -> zagree (rows ++ row_of b D) (yd ++ @tout_of reals b A).
Proof.
  intros I R Z. destruct b; cbn [row_of tout_of]; rewrite ?app_nil_r; auto.
  destruct Z as [L Z]. split; [rewrite !app_length, L; reflexivity|].
  intros k row E Hj. destruct (Nat.lt_ge_cases k (length rows)) as [Hk|Hk].
  - rewrite nth_error_app1 in E by auto. rewrite nth_error_app1 by lia. eauto.
  - rewrite nth_error_app2 in E by auto. rewrite nth_error_app2, L by lia.
    destruct (k - length rows)%nat as [|k']; [|cbn in E; destruct k'; discriminate].
    cbn in *. injection E as <-. f_equal. apply I; auto.
Qed.

Lemma trun_step o t s e : @trun reals ps x v (o :: t) s = Some e -> (0 <= frc (tF e))%Z ->
  exists f1, @zstep reals ps x o (tF s) = inl f1 /\
    @trun reals ps x v t (mkT f1 (@tval reals ps x v (fi (tF s)) (resolve (fT (tF s)) o) (fT (tF s)) (tD s))
                       (tyd s ++ @tout_of reals (resolve (fT (tF s)) o) (tD s))) = Some e.
Proof.
  cbn [trun]. unfold tstep. destruct (@zstep reals ps x o (tF s)) as [f1|[f'|]] eqn:E; eauto; [|discriminate].
  intros [= <-] H. cbn in H. apply (@zstep_done reals ps o x) in E. lia.
Qed.

(* one induction for both modes *)
Lemma tangent_sim (tight : bool) (t : list (op reals)) : forall D rows h s e rows',
  (if tight then @trow reals ps x t (fi (tF s)) (fT (tF s)) D rows
   else @srun reals t (fi (tF s)) D rows) = SRows rows' ->
  zinv (fun l => ~ In l h) D (tD s) -> zagree rows (tyd s) ->
  patternable tight (@resolved reals ps x t (tF s)) h = true ->
  pow_regular (@resolved reals ps x t (tF s)) (states ps x t (tF s)) ->
  @trun reals ps x v t s = Some e -> (0 <= frc (tF e))%Z ->
  zagree rows' (tyd e).
Proof.
  induction t as [|o t IH]; intros D rows h s e rows' SR I A PA PO Z F.
  - cbn in *. injection Z as <-. destruct tight; injection SR as <-; auto.
  - destruct (trun_step o t s Z F) as (f1 & E1 & Z1).
    cbn [resolved states pow_regular] in PA, PO. rewrite E1 in PA, PO. cbn [pow_regular] in PO.
    destruct PO as [PO PO1].
    destruct (@zstep_inl reals ps o x (tF s) f1 E1) as (O1 & A1 & T1 & I1 & _).
    set (b := resolve (fT (tF s)) o) in *.
    destruct (@patternable_inv reals tight _ _ _ PA) as (PL & PR & PS & PN).
    assert (GQ : match b with GenQuad _ _ _ _ _ _ => False | _ => True end).
    { destruct tight.
      - cbn [trow] in SR. rewrite O1 in SR. fold b in SR. destruct b; auto. discriminate SR.
      - destruct o as [b0| | | | | | | | | | | | | | | | | | | |]; try discriminate SR.
        change b with b0. destruct b0; auto. discriminate SR. }
    assert (ST : zinv (after (fun l => ~ In l h) b)
      (if tight then @dtight reals (fi (tF s)) b (fT (tF s)) D else dsafe (fi (tF s)) b D)
      (@tval reals ps x v (fi (tF s)) b (fT (tF s)) (tD s))).
    { destruct tight; [apply ttight_step|apply tsafe_step]; auto; destruct b; auto. }
    refine (IH (if tight then @dtight reals (fi (tF s)) b (fT (tF s)) D else dsafe (fi (tF s)) b D)
              (rows ++ row_of b D) (helpers b h) _ e rows' _ _ _ _ _ Z1 F); auto.
    + cbn [tF fi fT]. destruct tight.
      * rewrite I1, T1, <- (@tight_T reals ps x) by auto. cbn [trow] in SR. rewrite O1 in SR.
        fold b in SR. rewrite A1 in SR. destruct b; auto; contradiction.
      * destruct o as [b0| | | | | | | | | | | | | | | | | | | |]; try discriminate SR.
        change b with b0 in *. rewrite I1. cbn [srun] in SR. destruct b0; auto; discriminate SR.
    + cbn [tD]. eapply zinv_sub; [exact ST|]. apply (@helpers_after reals ps x x).
    + cbn [tyd]. apply zagree_step with (P := fun l => ~ In l h); auto.
Qed.
End Tangent.
