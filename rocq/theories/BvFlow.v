(* Proofs for C47, C48: the rows contain nothing but chains of operations; the rows
   of the reverse sweep, strip by strip. *)
Require Import List ZArith NArith Bool Arith Lia.
Require Import Verif.AdModel Verif.AdSpec Verif.SpSpec Verif.SpProofs Verif.AdRestore Verif.AdReplay
  Verif.BvModel Verif.BvSpec Verif.BvBits Verif.BvFwd Verif.BvRev.
Import ListNotations.
Set Implicit Arguments.

Section Flow.
Variable K : Arith.
Notation val := (V K).
Notation mem := (mem K).
Notation op := (op K).
Notation bop := (bop K).
Notation bsafe := (@fsafe bool false orb K bmin orb).
Notation btight := (@ftight bool false orb K bmin orb orb).
Notation csafe := (@qsafe bool false orb K orb).
Notation ctight := (@qtight bool false orb K orb).

(* forward, one operation *)
Definition fwd_from (sb : bool) (b : bop) (B : bp) (l : nat) : Prop :=
  (~ In l (overwrites b) /\ B l = true) \/
  (In l (bwrites b) /\ exists a, In a (breads b) /\ B a = true) \/
  (sb = true /\ b = AssignInd _ l).

Lemma pset_true (A : bp) r v l : pset A r v l = true -> (l = r /\ v = true) \/ (l <> r /\ A l = true).
Proof. unfold pset. destruct (Nat.eqb_spec l r); auto. Qed.

Lemma pcopy_true n arg res : forall q (B : bp) l, pcopy n arg res q B l = true ->
  (exists j, q <= j < q + n /\ l = res + j /\
     exists a, (q <= a < q + n /\ B (arg + a) = true)) \/
  ((forall j, q <= j < q + n -> l <> res + j) /\ B l = true).
Proof.
  induction n as [|n IH]; intros q B l H; cbn [pcopy] in H.
  - right. split; auto. intros; lia.
  - apply IH in H. destruct H as [(j & Hj & -> & a & Ha & HB)|[Hj HB]].
    + left. exists j. split; [lia|]. split; auto. apply pset_true in HB.
      destruct HB as [[_ HB]|[_ HB]]; [exists q|exists a]; split; auto; lia.
    + apply pset_true in HB. destruct HB as [[-> HB]|[Ne HB]].
      * left. exists q. split; [lia|]. split; auto. exists q. split; auto. lia.
      * right. split; auto. intros j Hj'. destruct (Nat.eq_dec j q) as [->|]; auto. apply Hj. lia.
Qed.
Lemma paxpy_true n arg a1 a2 res : forall q (B : bp) l, paxpy orb n arg a1 a2 res q B l = true ->
  (exists j, q <= j < q + n /\ l = res + j /\
     (B arg = true \/ exists a, q <= a < q + n /\ (B (a1 + a) = true \/ B (a2 + a) = true))) \/
  ((forall j, q <= j < q + n -> l <> res + j) /\ B l = true).
Proof.
  induction n as [|n IH]; intros q B l H; cbn [paxpy] in H.
  - right. split; auto. intros; lia.
  - assert (New : B (a2 + q) || (B (a1 + q) || B arg) = true ->
        B arg = true \/ exists a, q <= a < q + S n /\ (B (a1 + a) = true \/ B (a2 + a) = true)).
    { rewrite !orb_true_iff. intros [Q|[Q|Q]]; auto; right; exists q; split; auto; lia. }
    apply IH in H. destruct H as [(j & Hj & -> & HB)|[Hj HB]].
    + left. exists j. split; [lia|]. split; auto.
      destruct HB as [HB|(a & Ha & HB)].
      * apply pset_true in HB. destruct HB as [[_ HB]|[_ HB]]; auto.
      * destruct HB as [HB|HB]; apply pset_true in HB; destruct HB as [[_ HB]|[_ HB]]; auto;
          right; exists a; split; auto; lia.
    + apply pset_true in HB. destruct HB as [[-> HB]|[Ne HB]].
      * left. exists q. split; [lia|]. split; auto.
      * right. split; auto. intros j Hj'. destruct (Nat.eq_dec j q) as [->|]; auto. apply Hj. lia.
Qed.
Lemma pdot_true n a1 a2 res : forall q (B : bp) l, pdot orb n a1 a2 res q B l = true ->
  (l = res /\ (B res = true \/ exists a, q <= a < q + n /\ (B (a1 + a) = true \/ B (a2 + a) = true))) \/
  (l <> res /\ B l = true).
Proof.
  induction n as [|n IH]; intros q B l H; cbn [pdot] in H.
  - destruct (Nat.eq_dec l res) as [->|]; auto.
  - assert (New : B res || (B (a1 + q) || B (a2 + q)) = true ->
        B res = true \/ exists a, q <= a < q + S n /\ (B (a1 + a) = true \/ B (a2 + a) = true)).
    { rewrite !orb_true_iff. intros [Q|[Q|Q]]; auto; right; exists q; split; auto; lia. }
    apply IH in H. destruct H as [(-> & HB)|[Hj HB]].
    + left. split; auto. destruct HB as [HB|(a & Ha & HB)].
      * apply pset_true in HB. destruct HB as [[_ HB]|[_ HB]]; auto.
      * destruct HB as [HB|HB]; apply pset_true in HB; destruct HB as [[_ HB]|[_ HB]]; auto;
          right; exists a; split; auto; lia.
    + right. split; auto. now rewrite pset_neq in HB.
Qed.
Lemma pzero_true n : forall res (B : bp) l, pzero false n res B l = true ->
  (~ In l (seq res n)) /\ B l = true.
Proof.
  induction n as [|n IH]; intros res B l H; cbn [pzero seq] in *; auto.
  apply IH in H. destruct H as [H HB]. apply pset_true in HB.
  destruct HB as [[_ HB]|[Ne HB]]; [discriminate|]. split; auto. intros [Q|Q]; auto.
Qed.

Ltac one_write H :=
  apply pset_true in H; destruct H as [[-> H]|[Ne H]];
  [right; left; split; [cbn; auto|]; rewrite ?orb_true_iff in H; try discriminate H;
   repeat match type of H with _ \/ _ => destruct H as [H|H] end;
   eexists; (split; [|exact H]); cbn; auto
  |left; split; [cbn; intuition|exact H]].

Lemma bsafe_from sb b B l : bsafe sb b B l = true -> fwd_from sb b B l.
Proof.
  intros H. unfold fwd_from.
  destruct b; cbn [fsafe bmin] in H; cbn [overwrites bwrites breads]; try (one_write H; fail);
    try (left; split; [cbn; tauto|exact H]; fail).
  all: try (destruct (Nat.eq_dec l res) as [->|]; [right; left|left]; cbn; intuition; eauto; fail).
  - apply pset_true in H. destruct H as [[-> H]|[Ne H]]; auto.
    left. split; auto. cbn. intuition.
  - apply pset_true in H. destruct H as [[-> H]|[Ne H]].
    + right; left. split; [cbn; auto|]. exists a1. split; [cbn; auto|].
      apply pset_true in H. destruct H as [[_ H]|[_ H]]; auto.
    + apply pset_true in H. destruct H as [[-> H]|[Ne' H]].
      * right; left. split; [cbn; auto|]. exists a1. cbn; auto.
      * left. split; auto. cbn. intuition.
  - apply pset_true in H. destruct H as [[-> H]|[Ne H]].
    + right; left. split; [cbn; auto|]. exists a1. split; [cbn; auto|].
      apply pset_true in H. destruct H as [[_ H]|[_ H]]; auto.
    + apply pset_true in H. destruct H as [[-> H]|[Ne' H]].
      * right; left. split; [cbn; auto|]. exists a1. cbn; auto.
      * left. split; auto. cbn. intuition.
  - apply pcopy_true in H. destruct H as [(j & Hj & -> & a & Ha & HB)|[Hj HB]].
    + right; left. split; [apply in_seq; lia|]. exists (arg + a). split; auto. apply in_seq. lia.
    + left. split; auto. rewrite in_seq. intros Q. apply (Hj (l - res)); lia.
  - apply pdot_true in H. destruct H as [(-> & HB)|[Ne HB]].
    + right; left. split; [cbn; auto|]. destruct HB as [HB|(a & Ha & HB)].
      * rewrite pset_eq in HB. discriminate HB.
      * destruct HB as [HB|HB]; apply pset_true in HB;
          destruct HB as [[_ HB]|[_ HB]]; try discriminate HB;
          eexists; (split; [|exact HB]); rewrite in_app_iff, !in_seq; lia.
    + left. rewrite pset_neq in HB by auto. split; auto. cbn. intuition.
  - apply paxpy_true in H. destruct H as [(j & Hj & -> & HB)|[Hj HB]].
    + right; left. split; [apply in_seq; lia|].
      destruct HB as [HB|(a & Ha & [HB|HB])]; eexists; (split; [|exact HB]); cbn [In]; auto;
        rewrite in_app_iff, !in_seq; lia.
    + left. split; auto. rewrite in_seq. intros Q. apply (Hj (l - res)); lia.
  - apply pzero_true in H. left. exact H.
Qed.
Lemma btight_from sb b T B l : btight sb b T B l = true -> fwd_from sb b B l.
Proof.
  intros H. destruct b; try (apply bsafe_from; exact H); cbn [ftight] in H;
    unfold fwd_from; cbn [overwrites bwrites breads].
  - destruct (ltb K (T a2) (T a1)); [one_write H|]. destruct (ltb K (T a1) (T a2)); one_write H.
  - destruct (ltb K (zero K) (T arg)); one_write H.
  - destruct (leb K (zero K) (T arg)); one_write H.
  - destruct (ltb K (zero K) (T arg)); [one_write H|].
    destruct (Nat.eq_dec l res) as [->|]; [right; left|left]; cbn; intuition.
    exists res. auto.
  - destruct (leb K (zero K) (T arg)); [one_write H|].
    destruct (Nat.eq_dec l res) as [->|]; [right; left|left]; cbn; intuition.
    exists res. auto.
Qed.

Lemma flows_step (b : bop) bs sb (B : bp) l k : fwd_from sb b B l -> is_dep b = false ->
  flows true bs l k ->
  (exists l', B l' = true /\ flows true (b :: bs) l' k) \/
  (sb = true /\ b = AssignInd _ l).
Proof.
  intros [[N H]|[[N (a & Ha & H)]|H]] D F; auto; left.
  - exists l. split; auto. destruct b; try discriminate D; cbn [flows]; left; split; auto.
  - exists a. split; auto. destruct b; try discriminate D; cbn [flows]; right; split; eauto.
Qed.
Lemma feeds_step (b : bop) bs j k : is_ind b = false -> is_dep b = false ->
  feeds true bs j k -> feeds true (b :: bs) j k.
Proof. destruct b; try discriminate; auto. Qed.

Variables (n m c : nat).
Lemma fwd_flow (b : bop) bs (B B' : bp) rest i k :
  (forall l, B' l = true -> fwd_from (sbit n c i) b B l) ->
  (forall k, nth k rest false = true ->
    (exists l, B' l = true /\ flows true bs l k) \/
    ((if is_ind b then S i else i) <= c /\ feeds true bs (c - (if is_ind b then S i else i)) k)) ->
  nth k (prow b B ++ rest) false = true ->
  (exists l, B l = true /\ flows true (b :: bs) l k) \/
  (i <= c /\ feeds true (b :: bs) (c - i) k).
Proof.
  intros H IH Hn.
  destruct (is_dep b) eqn:Db.
  - destruct b; try discriminate Db. cbn [prow app] in Hn. destruct k as [|k]; cbn [nth] in Hn.
    + left. exists res. cbn. auto.
    + apply IH in Hn. destruct Hn as [(l & Hl & F)|[Hi F]].
      * left. exists l. destruct (H l Hl) as [[_ Q]|[[[] _]|[_ Q]]]; [|discriminate Q].
        split; auto. right. cbn [Nat.sub]. rewrite Nat.sub_0_r. split; auto. lia.
      * right. cbn in *. rewrite Nat.sub_0_r. split; auto. split; auto. lia.
  - assert (P : prow b B = []) by (destruct b; try discriminate Db; reflexivity).
    rewrite P in Hn. cbn [app] in Hn. apply IH in Hn. destruct Hn as [(l & Hl & F)|[Hi F]].
    + destruct (@flows_step b bs (sbit n c i) B l k (H l Hl) Db F) as [Q|[Q ->]]; auto.
      right. unfold sbit in Q. apply andb_true_iff in Q. destruct Q as [Q _]. apply Nat.eqb_eq in Q.
      subst i. rewrite Nat.sub_diag. split; auto.
    + right. destruct (is_ind b) eqn:Ib.
      * destruct b; try discriminate Ib. split; [lia|]. cbn [feeds].
        destruct (c - i) as [|q] eqn:E; [lia|]. replace q with (c - S i) by lia. exact F.
      * split; auto. now apply feeds_step.
Qed.

Lemma bsrun_flow (t : list op) : forall i B k, nth k (bsrun (sbit n c) t i B) false = true ->
  (exists l, B l = true /\ flows true (plains t) l k) \/
  (i <= c /\ feeds true (plains t) (c - i) k).
Proof.
  induction t as [|o t IH]; intros i B k Hn; cbn [bsrun] in Hn; [destruct k; discriminate Hn|].
  destruct o as [b| | | | | | | | | | | | | | | | | | | |]; try (destruct k; discriminate Hn).
  cbn [plains flat_map app]. fold (plains t).
  eapply fwd_flow; [|intros k' Hk'; apply IH in Hk'; exact Hk'|exact Hn].
  intros l. apply bsafe_from.
Qed.
Lemma btrun_flow ps x (t : list op) : forall s B k, nth k (btrun ps x (sbit n c) t s B) false = true ->
  (exists l, B l = true /\ flows true (resolved ps x t s) l k) \/
  (fi s <= c /\ feeds true (resolved ps x t s) (c - fi s) k).
Proof.
  induction t as [|o t IH]; intros s B k Hn; cbn [btrun] in Hn; [destruct k; discriminate Hn|].
  cbn [resolved]. destruct (zstep ps x o s) as [s1|] eqn:E1.
  - destruct (zstep_inl _ _ _ _ E1) as (_ & _ & _ & I1 & _).
    eapply fwd_flow; [|intros k' Hk'; apply IH in Hk'; rewrite I1 in Hk'; exact Hk'|exact Hn].
    intros l. apply btight_from.
  - rewrite app_nil_r in Hn. destruct (resolve (fT s) o) eqn:E; cbn [prow] in Hn;
      try (destruct k; discriminate Hn).
    destruct k as [|k]; [|destruct k; discriminate Hn]. left. exists res. cbn. auto.
Qed.

(* ------------------------------------------------------------------ *)
(* reverse *)
Definition rev_from (b : bop) (A : bp) (l : nat) : Prop :=
  A l = true \/ (In l (breads b) /\ exists r, In r (bwrites b) /\ A r = true).

Lemma qcopy_true sz arg res : forall q (A : bp) l, qcopy false orb sz arg res q A l = true ->
  A l = true \/ (exists j, q <= j < q + sz /\ l = arg + j) /\
                exists j, q <= j < q + sz /\ A (res + j) = true.
Proof.
  induction sz as [|sz IH]; intros q A l H; cbn [qcopy] in H; auto.
  assert (W1 : forall l, pset (pset A (arg + q) (A (arg + q) || A (res + q))) (res + q) false l = true ->
            A l = true \/ (l = arg + q /\ A (res + q) = true)).
  { intros l' Q. apply pset_true in Q. destruct Q as [[_ Q]|[_ Q]]; [discriminate Q|].
    apply pset_true in Q. destruct Q as [[-> Q]|[_ Q]]; auto.
    apply orb_true_iff in Q. destruct Q; auto. }
  apply IH in H. destruct H as [H|[(j & Hj & ->) (r & Hr & H)]].
  - apply W1 in H. destruct H as [H|[-> H]]; auto. right. split; exists q; split; auto; lia.
  - right. split; [exists j; split; auto; lia|]. apply W1 in H.
    destruct H as [H|[_ H]]; [exists r|exists q]; split; auto; lia.
Qed.
Lemma qadd_true (A : bp) res arg l : qadd orb A res arg l = true ->
  A l = true \/ (l = arg /\ A res = true).
Proof.
  intros Q. apply pset_true in Q. destruct Q as [[-> Q]|[_ Q]]; auto.
  apply orb_true_iff in Q. destruct Q; auto.
Qed.
Lemma qdot_true sz a1 a2 res : forall q (A : bp) l, qdot orb sz a1 a2 res q A l = true ->
  A l = true \/ ((exists j, q <= j < q + sz /\ (l = a1 + j \/ l = a2 + j)) /\ A res = true).
Proof.
  induction sz as [|sz IH]; intros q A l H; cbn [qdot] in H; auto.
  assert (W1 : forall l, qadd orb (qadd orb A res (a2 + q)) res (a1 + q) l = true ->
            A l = true \/ ((l = a1 + q \/ l = a2 + q) /\ A res = true)).
  { intros l' Q. apply qadd_true in Q. destruct Q as [Q|[-> Q]]; apply qadd_true in Q; intuition. }
  apply IH in H. destruct H as [H|[(j & Hj & Hl) H]].
  - apply W1 in H. destruct H as [H|[Hl H]]; auto. right. split; auto. exists q. split; auto. lia.
  - right. split; [exists j; split; auto; lia|]. apply W1 in H. destruct H as [H|[_ H]]; auto.
Qed.
Lemma qaxpy_true sz arg a1 a2 res : forall q (A : bp) l, qaxpy orb sz arg a1 a2 res q A l = true ->
  A l = true \/ ((l = arg \/ exists j, q <= j < q + sz /\ (l = a1 + j \/ l = a2 + j)) /\
     exists j, q <= j < q + sz /\ A (res + j) = true).
Proof.
  induction sz as [|sz IH]; intros q A l H; cbn [qaxpy] in H; auto.
  assert (W1 : forall l, qadd orb (qadd orb (qadd orb A (res + q) arg) (res + q) (a2 + q)) (res + q) (a1 + q) l = true ->
            A l = true \/ ((l = arg \/ l = a1 + q \/ l = a2 + q) /\ A (res + q) = true)).
  { intros l' Q. apply qadd_true in Q. destruct Q as [Q|[-> Q]];
      apply qadd_true in Q; destruct Q as [Q|[-> Q]]; apply qadd_true in Q; intuition. }
  apply IH in H. destruct H as [H|[Hl (r & Hr & H)]].
  - apply W1 in H. destruct H as [H|[Hl H]]; auto. right. split.
    + destruct Hl as [->|Hl]; auto. right. exists q. split; auto. lia.
    + exists q. split; auto. lia.
  - right. split.
    + destruct Hl as [->|(j & Hj & Hl)]; auto. right. exists j. split; auto. lia.
    + apply W1 in H. destruct H as [H|[_ H]]; [exists r|exists q]; split; auto; lia.
Qed.
Lemma qone_true (A : bp) res arg l : qone false orb A res arg l = true ->
  A l = true \/ (l = arg /\ A res = true).
Proof.
  intros Q. apply pset_true in Q. destruct Q as [[-> Q]|[_ Q]].
  - apply orb_true_iff in Q. destruct Q as [Q|Q]; auto.
    apply pset_true in Q. destruct Q as [[_ Q]|[_ Q]]; [discriminate Q|auto].
  - apply pset_true in Q. destruct Q as [[_ Q]|[_ Q]]; [discriminate Q|auto].
Qed.
Lemma qtwo_true (A : bp) res a1 a2 l : qtwo false orb A res a1 a2 l = true ->
  A l = true \/ ((l = a1 \/ l = a2) /\ A res = true).
Proof.
  intros Q. apply pset_true in Q. destruct Q as [[-> Q]|[_ Q]].
  - apply orb_true_iff in Q. destruct Q as [Q|Q]; auto. apply qone_true in Q. intuition.
  - apply qone_true in Q. intuition.
Qed.
Lemma qzero_true (A : bp) r l : pset A r false l = true -> A l = true.
Proof. intros Q. apply pset_true in Q. destruct Q as [[_ Q]|[_ Q]]; [discriminate Q|auto]. Qed.

Ltac from_back H :=
  repeat match type of H with
  | (if ?b then _ else _) _ = true => destruct b
  | pset _ _ false _ = true => apply qzero_true in H
  end;
  auto;
  repeat match type of H with
  | qone _ _ _ _ _ _ = true => apply qone_true in H; destruct H as [H|[? H]]; auto
  | qtwo _ _ _ _ _ _ _ = true => apply qtwo_true in H; destruct H as [H|[? H]]; auto
  | qadd _ _ _ _ _ = true => apply qadd_true in H; destruct H as [H|[? H]]; auto
  end;
  right; (split; [cbn; intuition|]); eexists; (split; [|exact H]); cbn; auto.

Lemma csafe_from sd b A l : csafe sd b A l = true ->
  match b with AssignDep _ r => (l = r /\ sd = true) \/ (l <> r /\ A l = true) | _ => rev_from b A l end.
Proof.
  intros H. unfold rev_from.
  destruct b; cbn [qsafe] in H; cbn [bwrites breads]; try (from_back H; fail).
  - now apply pset_true in H.
  - destruct (Nat.eqb res a1 || Nat.eqb res a2); [|apply qzero_true in H];
      destruct (Nat.eqb res a2), (Nat.eqb res a1); from_back H.
  - destruct (Nat.eqb res a1 || Nat.eqb res a2); [|apply qzero_true in H];
      destruct (Nat.eqb res a2), (Nat.eqb res a1); from_back H.
  - destruct (Nat.eqb res a1); auto. apply qzero_true in H.
    apply (@qadd_true A res a1) in H. destruct H as [H|[-> H]]; auto.
    right. cbn. split; eauto.
  - destruct (Nat.eqb res a1); auto. apply qzero_true in H.
    apply (@qadd_true A res a1) in H. destruct H as [H|[-> H]]; auto.
    right. cbn. split; eauto.
  - apply qcopy_true in H. destruct H as [H|[(j & Hj & ->) (r & Hr & H)]]; auto.
    right. split; [apply in_seq; lia|]. eexists. split; [|exact H]. apply in_seq. lia.
  - apply qdot_true in H. destruct H as [H|[(j & Hj & Hl) H]]; auto.
    right. split; [rewrite in_app_iff, !in_seq; lia|]. eexists. split; [|exact H]. cbn; auto.
  - apply qaxpy_true in H. destruct H as [H|[Hl (r & Hr & H)]]; auto.
    right. split.
    + cbn [In]. rewrite in_app_iff, !in_seq. destruct Hl as [->|(j & Hj & Hl)]; auto. right. lia.
    + eexists. split; [|exact H]. apply in_seq. lia.
  - apply pzero_true in H. tauto.
  - apply pzero_true in H. tauto.
Qed.
Lemma ctight_from sd b T A l : ctight sd b T A l = true ->
  match b with AssignDep _ r => (l = r /\ sd = true) \/ (l <> r /\ A l = true) | _ => rev_from b A l end.
Proof.
  intros H. destruct b; try (cbn [qtight] in H; apply csafe_from in H; exact H); cbn [qtight] in H;
    unfold rev_from; cbn [bwrites breads].
  - from_back H.
  - destruct (ltb K (T arg) (zero K) || ltb K (zero K) (T arg)); from_back H.
  - destruct (ltb K (zero K) (T arg)); from_back H.
  - destruct (leb K (zero K) (T arg)); from_back H.
  - from_back H.
  - from_back H.
Qed.

(* one step *)
Lemma rev_flow (b : bop) bs (A' : bp) (s : qstate bool) i d k :
  qi s = i + (if is_ind b then 1 else 0) -> qd s = d + (if is_dep b then 1 else 0) ->
  (forall l, A' l = true ->
     match b with AssignDep _ r => (l = r /\ sbit m k d = true) \/ (l <> r /\ qA s l = true)
     | _ => rev_from b (qA s) l end) ->
  (forall l, qA s l = true -> qd s <= k /\ flows false bs l (k - qd s)) ->
  (forall j, qi s <= j < n -> qz s j = true -> qd s <= k /\ feeds false bs (j - qi s) (k - qd s)) ->
  (forall l, A' l = true -> d <= k /\ flows false (b :: bs) l (k - d)) /\
  (forall j, i <= j < n -> qz (qnext b A' s) j = true -> d <= k /\ feeds false (b :: bs) (j - i) (k - d)).
Proof.
  intros Qi Qd HA H1 H2. split.
  - intros l Hl. apply HA in Hl. destruct (is_dep b) eqn:Db.
    + destruct b; try discriminate Db. destruct Hl as [[-> Hl]|[Ne Hl]].
      * unfold sbit in Hl. apply andb_true_iff in Hl. destruct Hl as [Hl _]. apply Nat.eqb_eq in Hl.
        subst d. split; auto. left. split; auto. lia.
      * apply H1 in Hl. destruct Hl as [Q F]. split; [lia|]. right. split; [lia|].
        replace (k - d - 1) with (k - qd s) by lia. exact F.
    + rewrite Nat.add_0_r in Qd. rewrite Qd in *.
      assert (Hl' : rev_from b (qA s) l) by (destruct b; try discriminate Db; exact Hl).
      destruct Hl' as [Q|[R (r & W & Q)]]; apply H1 in Q; destruct Q as [Q F]; split; auto.
      * destruct b; try discriminate Db; left; split; auto; discriminate.
      * destruct b; try discriminate Db; right; split; eauto.
  - intros j Hj Hz. destruct (is_ind b) eqn:Ib.
    + destruct b; try discriminate Ib. cbn [qnext qz is_dep] in *. rewrite Nat.add_0_r in Qd.
      replace (qi s - 1) with i in Hz by lia. cbn [feeds].
      destruct (Nat.eqb_spec j i) as [->|Ne].
      * rewrite Nat.sub_diag. apply H1 in Hz. rewrite Qd in Hz. exact Hz.
      * apply H2 in Hz; [|lia]. rewrite Qd in Hz. destruct Hz as [Hz F]. split; auto.
        destruct (j - i) as [|q] eqn:E; [lia|]. replace q with (j - qi s) by lia. exact F.
    + rewrite qnext_z in Hz by (rewrite Ib; discriminate). rewrite Nat.add_0_r in Qi. rewrite Qi in *.
      apply H2 in Hz; auto. destruct Hz as [Hz F]. destruct b; try discriminate Ib; cbn [is_dep feeds] in *;
        rewrite ?Nat.add_0_r in Qd; rewrite ?Qd in *; auto.
      split; [lia|]. split; [lia|]. replace (k - d - 1) with (k - (d + 1)) by lia. exact F.
Qed.
End Flow.
