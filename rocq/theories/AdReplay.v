(* Proofs for AdProps.v: replaying a trace follows the traced program. *)
Require Import List ZArith Bool Arith Lia.
Require Import Verif.AdModel Verif.AdRecord Verif.AdSpec.
Import ListNotations.
Set Implicit Arguments.

Section Replay.
Variable K : Arith.
Notation val := (V K).
Notation mem := (mem K).
Notation op := (op K).
Notation bop := (bop K).
Implicit Types (T : mem) (b : bop) (o : op) (D : nat -> Prop).

Lemma upd_eq T i v : upd T i v i = v.
Proof. unfold upd. now rewrite Nat.eqb_refl. Qed.
Lemma upd_neq T i j v : j <> i -> upd T i v j = T j.
Proof. unfold upd. intros. destruct (Nat.eqb_spec j i); congruence. Qed.

Definition agree D T1 T2 := forall l, D l -> T1 l = T2 l.

Lemma agree_upd D T1 T2 r v1 v2 :
  agree D T1 T2 -> v1 = v2 ->
  agree (fun l => l = r \/ D l) (upd T1 r v1) (upd T2 r v2).
Proof.
  intros A -> l Hl. unfold upd. destruct (Nat.eqb_spec l r); auto.
  apply A. tauto.
Qed.

Lemma agree_sub D D' T1 T2 :
  (forall l, D' l -> D l) -> agree D T1 T2 -> agree D' T1 T2.
Proof. intros H A l Hl. auto. Qed.

Lemma vcopy_agree n : forall arg res q D T1 T2,
  agree D T1 T2 -> (forall k, k < n -> D (arg + q + k)) ->
  agree (fun l => (exists k, k < n /\ l = res + q + k) \/ D l)
        (vcopy n arg res q T1) (vcopy n arg res q T2).
Proof.
  induction n; simpl; intros arg res q D T1 T2 A H.
  - eapply agree_sub; [|exact A]. intros l [[k [Hk _]]|?]; [lia|auto].
  - pose proof (@agree_upd D T1 T2 (res + q) _ _ A
      (A (arg + q) ltac:(specialize (H 0); rewrite Nat.add_0_r in H; apply H; lia)))
      as A'.
    specialize (IHn arg res (S q) _ _ _ A').
    eapply agree_sub; [|apply IHn].
    + intros l [[k [Hk ->]]|Hl].
      * destruct k. { right. left. lia. }
        left. exists k. lia.
      * right. right. auto.
    + intros k Hk. right. specialize (H (S k)).
      replace (arg + S q + k) with (arg + q + S k) by lia. apply H. lia.
Qed.

Lemma vdot_agree n : forall a1 a2 res q D T1 T2,
  agree D T1 T2 -> D res ->
  (forall k, k < n -> D (a1 + q + k)) -> (forall k, k < n -> D (a2 + q + k)) ->
  agree D (vdot n a1 a2 res q T1) (vdot n a1 a2 res q T2).
Proof.
  induction n; simpl; intros a1 a2 res q D T1 T2 A R H1 H2; auto.
  apply IHn; auto.
  - assert (E1 : D (a1 + q)) by (specialize (H1 0); rewrite Nat.add_0_r in H1; apply H1; lia).
    assert (E2 : D (a2 + q)) by (specialize (H2 0); rewrite Nat.add_0_r in H2; apply H2; lia).
    intros l Hl. unfold upd. destruct (Nat.eqb_spec l res); auto.
    rewrite (A res), (A _ E1), (A _ E2); auto.
  - intros k Hk. specialize (H1 (S k)).
    replace (a1 + S q + k) with (a1 + q + S k) by lia. apply H1. lia.
  - intros k Hk. specialize (H2 (S k)).
    replace (a2 + S q + k) with (a2 + q + S k) by lia. apply H2. lia.
Qed.

Lemma vaxpy_agree n : forall arg a1 a2 res q D T1 T2,
  agree D T1 T2 -> D arg ->
  (forall k, k < n -> D (a1 + q + k)) -> (forall k, k < n -> D (a2 + q + k)) ->
  agree (fun l => (exists k, k < n /\ l = res + q + k) \/ D l)
        (vaxpy n arg a1 a2 res q T1) (vaxpy n arg a1 a2 res q T2).
Proof.
  induction n; simpl; intros arg a1 a2 res q D T1 T2 A R H1 H2.
  - eapply agree_sub; [|exact A]. intros l [[k [Hk _]]|?]; [lia|auto].
  - assert (E1 : D (a1 + q)) by (specialize (H1 0); rewrite Nat.add_0_r in H1; apply H1; lia).
    assert (E2 : D (a2 + q)) by (specialize (H2 0); rewrite Nat.add_0_r in H2; apply H2; lia).
    assert (A' : agree (fun l => l = res + q \/ D l)
       (upd T1 (res + q) (add K (mul K (T1 arg) (T1 (a1 + q))) (T1 (a2 + q))))
       (upd T2 (res + q) (add K (mul K (T2 arg) (T2 (a1 + q))) (T2 (a2 + q))))).
    { apply agree_upd; auto. now rewrite (A arg), (A _ E1), (A _ E2). }
    specialize (IHn arg a1 a2 res (S q) _ _ _ A').
    eapply agree_sub; [|apply IHn].
    + intros l [[k [Hk ->]]|Hl].
      * destruct k. { right. left. lia. }
        left. exists k. lia.
      * right. right. auto.
    + auto.
    + intros k Hk. right. specialize (H1 (S k)).
      replace (a1 + S q + k) with (a1 + q + S k) by lia. apply H1. lia.
    + intros k Hk. right. specialize (H2 (S k)).
      replace (a2 + S q + k) with (a2 + q + S k) by lia. apply H2. lia.
Qed.

Lemma stock_agree n : forall res d D T1 T2,
  agree D T1 T2 ->
  agree (fun l => res <= l < res + n \/ D l)
        (stock n res d T1) (stock n res d T2).
Proof.
  induction n; simpl; intros res d D T1 T2 A.
  - eapply agree_sub; [|exact A]. intros l [?|?]; [lia|auto].
  - eapply agree_sub; [|apply IHn; apply agree_upd with (r := res); eauto].
    intros l [H|H]; [|tauto]. destruct (Nat.eq_dec l res); auto. left. lia.
Qed.

Lemma stock_val n : forall res d T l,
  stock n res d T l =
  if (res <=? l) && (l <? res + n) then nth (l - res) d (zero K) else T l.
Proof.
  induction n; simpl; intros res d T l.
  - destruct (Nat.leb_spec res l), (Nat.ltb_spec l (res + 0)); simpl; auto; lia.
  - rewrite IHn. unfold upd.
    destruct (Nat.eqb_spec l res) as [->|Ne].
    + destruct (Nat.leb_spec (S res) res), (Nat.leb_spec res res),
        (Nat.ltb_spec res (res + S n)); simpl; try lia.
      rewrite Nat.sub_diag. now destruct d.
    + destruct (Nat.leb_spec (S res) l), (Nat.leb_spec res l),
        (Nat.ltb_spec l (S res + n)), (Nat.ltb_spec l (res + S n));
        simpl; try lia; auto.
      destruct (l - res) eqn:E; [lia|].
      replace (l - S res) with n0 by lia. destruct d; simpl; auto.
      now destruct n0.
Qed.

(* An operation depends on what it reads only. *)
Lemma zval_agree ps x i b D T1 T2 :
  agree D T1 T2 -> (forall l, In l (breads b) -> D l) ->
  agree (fun l => In l (bwrites b) \/ D l)
        (zval ps x i b T1) (zval ps x i b T2).
Proof.
  intros A R.
  assert (P : forall r v1 v2, v1 = v2 ->
    agree (fun l => (r = l \/ False) \/ D l) (upd T1 r v1) (upd T2 r v2)).
  { intros r v1 v2 E. eapply agree_sub; [|apply agree_upd with (r := r); eauto].
    intros l [[?|[]]|?]; auto. }
  assert (Q : forall l, In l (breads b) -> T1 l = T2 l) by auto.
  destruct b; simpl in *;
    try (apply P; repeat rewrite Q by tauto; reflexivity);
    try (eapply agree_sub; [|exact A]; intros l [[]|?]; now auto).
  - (* sin *) rewrite (Q a1) by auto.
    intros l Hl. unfold upd.
    destruct (Nat.eqb_spec l res); [|destruct (Nat.eqb_spec l a2); auto].
    + destruct (Nat.eqb_spec a1 a2); auto. now rewrite (Q a1) by auto.
    + apply A. destruct Hl as [[H|[H|[]]]|H]; congruence.
  - (* cos *) rewrite (Q a1) by auto.
    intros l Hl. unfold upd.
    destruct (Nat.eqb_spec l res); [|destruct (Nat.eqb_spec l a2); auto].
    + destruct (Nat.eqb_spec a1 a2); auto. now rewrite (Q a1) by auto.
    + apply A. destruct Hl as [[H|[H|[]]]|H]; congruence.
  - (* cond_assign_s *) rewrite (Q arg) by auto.
    destruct (ltb K (zero K) (T2 arg)).
    + apply P. apply Q. auto.
    + intros l [[->|[]]|H]; auto.
  - rewrite (Q arg) by auto. destruct (leb K (zero K) (T2 arg)).
    + apply P. apply Q. auto.
    + intros l [[->|[]]|H]; auto.
  - eapply agree_sub; [|apply vcopy_agree with (D := D)]; auto.
    + intros l [H|H]; auto. apply in_seq in H. left. exists (l - res). lia.
    + intros k Hk. rewrite Nat.add_0_r. apply R. apply in_seq. lia.
  - eapply agree_sub; [|apply vdot_agree with (D := fun l => l = res \/ D l)].
    + intros l [[->|[]]|H]; auto.
    + apply agree_upd; auto.
    + auto.
    + intros k Hk. right. rewrite Nat.add_0_r. apply R. apply in_app_iff. left. apply in_seq. lia.
    + intros k Hk. right. rewrite Nat.add_0_r. apply R. apply in_app_iff. right. apply in_seq. lia.
  - eapply agree_sub; [|apply vaxpy_agree with (D := D)]; auto.
    + intros l [H|H]; auto. apply in_seq in H. left. exists (l - res). lia.
    + intros k Hk. rewrite Nat.add_0_r. apply R. right. apply in_app_iff. left. apply in_seq. lia.
    + intros k Hk. rewrite Nat.add_0_r. apply R. right. apply in_app_iff. right. apply in_seq. lia.
  - eapply agree_sub; [|apply stock_agree with (D := D)]; auto.
    intros l [H|H]; auto. apply in_seq in H. left. lia.
Qed.

Lemma resolve_agree o D T1 T2 :
  agree D T1 T2 -> (forall l, In l (pointer o) -> D l) ->
  resolve T1 o = resolve T2 o /\ oob T1 o = oob T2 o.
Proof.
  intros A P. destruct o; simpl in *; unfold tgt; split;
    repeat match goal with
           | |- context [T1 ?l] => rewrite (A l) by (apply P; auto)
           end; reflexivity.
Qed.

(* ------------------------------------------------------------------ *)
(* Operations up to the recorded outcome (coval) of min, abs, ceil, ... *)

Definition bstrip (b : bop) : bop :=
  match b with
  | MinOp _ a1 a2 r _ => MinOp K a1 a2 r (zero K)
  | AbsVal _ a r _ => AbsVal K a r (zero K)
  | CeilOp _ a r _ => CeilOp K a r (zero K)
  | FloorOp _ a r _ => FloorOp K a r (zero K)
  | CondAssign _ a a1 a2 r _ => CondAssign K a a1 a2 r (zero K)
  | CondEqAssign _ a a1 a2 r _ => CondEqAssign K a a1 a2 r (zero K)
  | CondAssignS _ a a1 r _ => CondAssignS K a a1 r (zero K)
  | CondEqAssignS _ a a1 r _ => CondEqAssignS K a a1 r (zero K)
  | _ => b
  end.

Definition strip (o : op) : op :=
  match o with
  | Plain b => Plain (bstrip b)
  | RefCondAssign _ a a1 a2 r _ => RefCondAssign K a a1 a2 r (zero K)
  | RefCondEqAssign _ a a1 a2 r _ => RefCondEqAssign K a a1 a2 r (zero K)
  | RefCondAssignS _ a a1 r _ => RefCondAssignS K a a1 r (zero K)
  | RefCondEqAssignS _ a a1 r _ => RefCondEqAssignS K a a1 r (zero K)
  | _ => o
  end.

Lemma resolve_strip T o : resolve T (strip o) = bstrip (resolve T o).
Proof. destruct o as [b| | | | | | | | | | | | | | | | | | | |]; try reflexivity. Qed.

Lemma oob_strip T o : oob T (strip o) = oob T o.
Proof. destruct o; reflexivity. Qed.

Lemma zval_strip ps x i b T : zval ps x i (bstrip b) T = zval ps x i b T.
Proof. destruct b; reflexivity. Qed.
Lemma breads_strip b : breads (bstrip b) = breads b.
Proof. destruct b; reflexivity. Qed.
Lemma bwrites_strip b : bwrites (bstrip b) = bwrites b.
Proof. destruct b; reflexivity. Qed.
Lemma out_strip b T : out_of (bstrip b) T = out_of b T.
Proof. destruct b; reflexivity. Qed.
Lemma ind_strip b : is_ind (bstrip b) = is_ind b.
Proof. destruct b; reflexivity. Qed.
Lemma abort_strip b T : zabort (bstrip b) T = zabort b T.
Proof. destruct b; reflexivity. Qed.
Lemma pointer_strip o : pointer (strip o) = pointer o.
Proof. destruct o; reflexivity. Qed.

(* Operations with equal stripped form behave alike. *)
Definition sim o1 o2 := strip o1 = strip o2.

Section Sim.
Variables o1 o2 : op.
Hypothesis S : sim o1 o2.
Lemma sim_resolve T : bstrip (resolve T o1) = bstrip (resolve T o2).
Proof. now rewrite <- !resolve_strip, S. Qed.
Lemma sim_oob T : oob T o1 = oob T o2.
Proof. now rewrite <- (oob_strip T o1), <- (oob_strip T o2), S. Qed.
Lemma sim_zval ps x i T :
  zval ps x i (resolve T o1) T = zval ps x i (resolve T o2) T.
Proof. now rewrite <- (zval_strip ps x i (resolve T o1)), sim_resolve, zval_strip. Qed.
Lemma sim_out T : out_of (resolve T o1) T = out_of (resolve T o2) T.
Proof. now rewrite <- (out_strip (resolve T o1)), sim_resolve, out_strip. Qed.
Lemma sim_ind T : is_ind (resolve T o1) = is_ind (resolve T o2).
Proof. now rewrite <- (ind_strip (resolve T o1)), sim_resolve, ind_strip. Qed.
Lemma sim_abort T : zabort (resolve T o1) T = zabort (resolve T o2) T.
Proof. now rewrite <- (abort_strip (resolve T o1)), sim_resolve, abort_strip. Qed.
End Sim.

(* ------------------------------------------------------------------ *)
(* Prefixes of a sweep *)

Fixpoint zexec (ps x : nat -> val) (t : list op) (s : fstate K)
  : fstate K + outcome K :=
  match t with
  | [] => inl s
  | o :: t' => match zstep ps x o s with
               | inl s' => zexec ps x t' s'
               | inr r => inr r
               end
  end.

Lemma zexec_app ps x t1 t2 s :
  zexec ps x (t1 ++ t2) s =
  match zexec ps x t1 s with inl s' => zexec ps x t2 s' | inr r => inr r end.
Proof.
  revert s. induction t1; simpl; intros; auto.
  destruct (zstep ps x a s); auto.
Qed.

Lemma zrun_exec ps x t s :
  zrun ps x t s = match zexec ps x t s with inl s' => Done s' | inr r => r end.
Proof.
  revert s. induction t; simpl; intros; auto.
  destruct (zstep ps x a s); auto.
Qed.

Definition rc_ok (r : Z) := (0 <= r)%Z.

Lemma mindec_ok a c : rc_ok a -> (0 <= c)%Z -> rc_ok (mindec a c).
Proof. unfold rc_ok, mindec. destruct (Z.ltb c a); lia. Qed.

Lemma zrc_ok b T rc : rc_ok rc -> rc_ok (zrc b T rc).
Proof.
  intros H.
  assert (M : forall c, (0 <= c)%Z -> rc_ok (mindec rc c))
    by (intros; now apply mindec_ok).
  destruct b; simpl; auto;
    repeat match goal with
           | |- context [match ?c with _ => _ end] => destruct c; auto
           end;
    try (apply M; lia); try (unfold rc_ok; lia);
    try (apply mindec_ok; [apply M|]; lia).
Qed.

(* ------------------------------------------------------------------ *)
(* Records of the recorder against steps of the sweep *)

Definition rel D (s : rec K) (m : fstate K) : Prop :=
  agree D (sT s) (fT m) /\ fi m = si s /\ fy m = sy s /\ rc_ok (frc m).

(* The record does to the values what its operation does, except on p_lost. *)
Definition pgood (ps x : nat -> val) (i : nat) (p : prim K) T : Prop :=
  match p_op p T with
  | [] => p_fail p T = false /\ p_ind p = false /\ p_dep p T = [] /\
          (forall l, ~ In l (p_lost p) -> p_val p ps x i T l = T l)
  | [o] => p_fail p T = oob T o /\ p_ind p = is_ind (resolve T o) /\
           p_dep p T = out_of (resolve T o) T /\
           zabort (resolve T o) T = None /\
           (forall T', zabort (resolve T' o) T' = None) /\
           (forall l, ~ In l (p_lost p) ->
              p_val p ps x i T l = zval ps x i (resolve T o) T l)
  | _ => False
  end.

Lemma prim_sim ps x p s m D l1 :
  pgood ps x (si s) p (sT s) ->
  (forall o l, In o (p_op p (sT s)) -> In l (oreads (sT s) o) -> D l) ->
  rel D s m ->
  map strip l1 = map strip (p_op p (sT s)) ->
  match rprim ps x p s with
  | Some s' => exists m', zexec ps x l1 m = inl m' /\ rel (dnext D p (sT s)) s' m'
  | None => zexec ps x l1 m = inr (@Failed K)
  end.
Proof.
  intros G R (A & I & Y & C) E. unfold rprim.
  unfold pgood in G.
  destruct (p_op p (sT s)) as [|o [|]] eqn:Eo; try contradiction.
  - destruct l1; [|discriminate E].
    destruct G as (F & N & Dp & Vl). rewrite F, N, Dp.
    exists m. split; [reflexivity|]. unfold rel. simpl.
    rewrite app_nil_r. repeat split; auto.
    intros l [[Hl|[o [Ho _]]] Hn].
    + rewrite Vl by auto. now apply A.
    + rewrite Eo in Ho. destruct Ho.
  - destruct l1 as [|o1 [|]]; try discriminate E.
    injection E as E. change (sim o1 o) in E.
    destruct G as (F & N & Dp & Ab0 & Ab & Vl).
    destruct (@resolve_agree o D (sT s) (fT m)) as [Er Eb]; auto.
    { intros l Hl. apply (R o l); simpl; auto. unfold oreads.
      apply in_app_iff. now left. }
    simpl. unfold zstep. rewrite (sim_oob E), <- Eb, F.
    destruct (oob (sT s) o) eqn:Eob; [reflexivity|].
    rewrite (sim_abort E), Ab, (sim_ind E), (sim_zval E), (sim_out E), <- Er.
    eexists. split; [reflexivity|].
    unfold rel. simpl. rewrite N, Dp, I, Y.
    assert (Rb : forall l, In l (breads (resolve (sT s) o)) -> D l).
    { intros l Hl. apply (R o l); simpl; auto. unfold oreads.
      rewrite Eob. apply in_app_iff. now right. }
    repeat split; auto.
    + intros l [Hl Hn]. rewrite Vl by auto.
      apply (zval_agree ps x (si s) (resolve (sT s) o) A Rb).
      destruct Hl as [Hl|[o' [Ho' Hl]]]; auto.
      rewrite Eo in Ho'. destruct Ho' as [<-|[]]. now left.
    + f_equal. clear -A Rb. destruct (resolve (sT s) o); simpl in *; auto.
      rewrite A; auto.
    + apply zrc_ok; auto.
Qed.

(* Along the records of a call *)
Fixpoint goodprims (ps x : nat -> val) (l : list (prim K)) (s : rec K) : Prop :=
  match l with
  | [] => True
  | p :: l' =>
      pgood ps x (si s) p (sT s) /\
      match rprim ps x p s with
      | Some s' => goodprims ps x l' s'
      | None => True
      end
  end.

(* the operations of a record do not depend on the values, but for coval *)
Definition stable (p : prim K) :=
  forall T1 T2, map strip (p_op p T1) = map strip (p_op p T2).

Lemma prims_sim ps1 x1 ps x l : forall s1 s1' s m D k,
  Forall stable l ->
  goodprims ps x l s ->
  okprims ps x l s D k ->
  rel D s m ->
  rprims ps1 x1 l s1 = Some s1' ->
  exists l1, sops s1' = sops s1 ++ l1 /\
  match rprims ps x l s with
  | Some s' => exists m' D', zexec ps x l1 m = inl m' /\ rel D' s' m' /\ k s' D'
  | None => zexec ps x l1 m = inr (@Failed K)
  end.
Proof.
  induction l as [|p l IH]; simpl; intros s1 s1' s m D k St G O R H.
  - injection H as <-. exists []. rewrite app_nil_r. split; auto.
    exists m, D. auto.
  - inversion St; subst. destruct G as [G1 G2], O as [O1 O2].
    destruct (rprim ps1 x1 p s1) as [s1a|] eqn:E1; [|discriminate].
    assert (Ep : sops s1a = sops s1 ++ p_op p (sT s1)).
    { unfold rprim in E1. destruct (p_fail p (sT s1)); [discriminate|].
      now injection E1 as <-. }
    pose proof (@prim_sim ps x p s m D (p_op p (sT s1)) G1 O1 R (H2 _ _)) as P.
    destruct (rprim ps x p s) as [sa|] eqn:E.
    + destruct P as (m' & Z & R').
      destruct (IH s1a s1' sa m' _ k H3 G2 O2 R' H) as (l1 & El & L).
      exists (p_op p (sT s1) ++ l1).
      split; [now rewrite El, Ep, app_assoc|].
      destruct (rprims ps x l sa).
      * destruct L as (m2 & D2 & Z2 & R2). exists m2, D2.
        split; [|exact R2]. now rewrite zexec_app, Z.
      * now rewrite zexec_app, Z.
    + assert (exists l1, sops s1' = sops s1a ++ l1) as [l1 El].
      { clear -H. revert s1a H. induction l as [|q l IH]; simpl; intros.
        - injection H as <-. exists []. now rewrite app_nil_r.
        - destruct (rprim ps1 x1 q s1a) as [sb|] eqn:Eq; [|discriminate].
          destruct (IH _ H) as [l1 E]. unfold rprim in Eq.
          destruct (p_fail q (sT s1a)); [discriminate|]. injection Eq as <-.
          simpl in E. rewrite <- app_assoc in E. eauto. }
      exists (p_op p (sT s1) ++ l1). split; [now rewrite El, Ep, app_assoc|].
      now rewrite zexec_app, P.
Qed.

(* ------------------------------------------------------------------ *)
(* Every call *)

Lemma stable_wr (o : mem -> op) r v :
  (forall T1 T2, strip (o T1) = strip (o T2)) -> stable (wr o r v).
Proof. intros H T1 T2. simpl. now rewrite (H T1 T2). Qed.

Lemma help_prims_stable f a t : Forall stable (help_prims K f a t).
Proof.
  destruct f; simpl; repeat constructor.
Qed.

Lemma knew_stable k : Forall stable (knew K k).
Proof. destruct k; repeat constructor. Qed.

Lemma prims_stable c : Forall stable (prims c).
Proof.
  assert (KN : forall k l, Forall stable l -> Forall stable (knew K k ++ l)).
  { intros. apply Forall_app. split; auto using knew_stable. }
  destruct c; simpl; repeat constructor; auto.
  all: repeat match goal with
       | |- Forall _ (if ?c then _ else _) => destruct c
       | |- Forall _ (knew _ _ ++ _) => apply KN
       | |- Forall _ (help_prims _ _ _ _ ++ _) =>
           apply Forall_app; split; [apply help_prims_stable|]
       | |- Forall _ (match ?k with _ => _ end) => destruct k
       end; repeat constructor.
  all: intros T1 T2; simpl; try (destruct u; reflexivity).
Qed.

Definition wr_good_cond ps x i (o : op) r (v : val) T :=
  oob T o = false /\ is_ind (resolve T o) = false /\
  out_of (resolve T o) T = [] /\ (forall T', zabort (resolve T' o) T' = None) /\
  (forall l, upd T r v l = zval ps x i (resolve T o) T l).

Lemma wr_good ps x i (o : mem -> op) r v T :
  wr_good_cond ps x i (o T) r (v T) T -> pgood ps x i (wr o r v) T.
Proof. intros (A & B & C & D & E). unfold pgood. simpl. auto 10. Qed.

Lemma wref_good ps x i (o : mem -> op) r v T :
  wr_good_cond ps x i (o T) (tgt T r) (v T) T -> pgood ps x i (wref o r v) T.
Proof. intros (A & B & C & D & E). unfold pgood. simpl. auto 10. Qed.

Section Good.
Variable L : Laws K.
Variables ps x : nat -> val.

Lemma good_dflt i r T : pgood ps x i (p_dflt K r) T.
Proof. apply wr_good. repeat split. Qed.

Lemma good_const i r c T :
  (eqb K c (zero K) = true -> c = zero K) -> pgood ps x i (p_const K r c) T.
Proof.
  intros H. apply wr_good. unfold eq0, eq1.
  destruct (eqb K c (zero K)) eqn:E0; [rewrite H by auto; repeat split|].
  destruct (eqb K c (one K)) eqn:E1; [rewrite (l_is1 L c E1)|]; repeat split.
Qed.

Lemma good_copy i a r T : pgood ps x i (p_copy K a r) T.
Proof. apply wr_good. repeat split. Qed.

Lemma good_un i u a r T : pgood ps x i (p_un K u a r) T.
Proof. apply wr_good. destruct u; repeat split. Qed.

Lemma good_bin i u a a2 r T : pgood ps x i (p_bin K u a a2 r) T.
Proof. apply wr_good. destruct u; repeat split. Qed.

Definition cst_ok (c : cstop) (cv : val) :=
  match c with
  | KAdd | KSub => eqb K cv (zero K) = false \/ ZeroLaws K
  | _ => True
  end.

Lemma good_cst i c cv a r T : cst_ok c cv -> pgood ps x i (p_cst K c cv a r) T.
Proof.
  intros H. apply wr_good. destruct c; simpl in *; unfold eq0, eq1.
  - destruct (eqb K cv (zero K)) eqn:E.
    + destruct H as [H|Z]; [discriminate|].
      rewrite (l_is0 Z cv E), (l_add0 Z). repeat split.
    + rewrite (l_addC L). repeat split.
  - destruct (eqb K cv (zero K)) eqn:E.
    + destruct H as [H|Z]; [discriminate|].
      rewrite (l_is0 Z cv E), (l_sub0 Z). repeat split.
    + repeat split.
  - destruct (eqb K cv (one K)) eqn:E1.
    { rewrite (l_is1 L _ E1), (l_mul1 L). repeat split. }
    destruct (eqb K cv (neg K (one K))) eqn:E2.
    { rewrite (l_ism1 L _ E2), (l_mulm1 L). repeat split. }
    rewrite (l_mulC L). repeat split.
  - repeat split.
Qed.

Lemma rprim_dflt r (s : rec K) :
  rprim ps x (p_dflt K r) s =
  Some (mkRec (upd (sT s) r (zero K)) (si s) (sops s ++ [Plain (AssignD0 K r)])
              (sT s r :: sk s) (sy s ++ []) (sd s)).
Proof. reflexivity. Qed.

Lemma goodprims_app l1 l2 (s : rec K) :
  (forall s, goodprims ps x l1 s) -> (forall s, goodprims ps x l2 s) ->
  goodprims ps x (l1 ++ l2) s.
Proof.
  intros H1 H2. revert s H1.
  assert (forall s, goodprims ps x l1 s -> goodprims ps x (l1 ++ l2) s).
  { induction l1 as [|p l1 IH]; simpl; intros s H; auto.
    destruct H as [A B]. split; auto.
    destruct (rprim ps x p s); auto. }
  auto.
Qed.

Lemma goodprims_knew k s : goodprims ps x (knew K k) s.
Proof. destruct k; simpl; auto. split; auto. apply good_dflt. Qed.

Lemma goodprims_all l s :
  (forall p, In p l -> forall i T, pgood ps x i p T) -> goodprims ps x l s.
Proof.
  revert s. induction l as [|p l IH]; simpl; intros s H; auto.
  split; auto. destruct (rprim ps x p s); auto.
Qed.

Lemma help_good f a t (s : rec K) :
  goodprims ps x (help_prims K f a t) s.
Proof.
  apply goodprims_all. intros p Hp i T.
  destruct f; simpl in Hp;
    repeat (destruct Hp as [<-|Hp]); try contradiction;
    auto using good_dflt, good_un, good_bin;
    apply good_cst; simpl; auto using (l_one0 L), (l_mone0 L).
Qed.

Lemma call_good (s : rec K) c :
  callok x (si s) (sT s) c -> goodprims ps x (prims c) s.
Proof.
  intros H.
  assert (KN : forall k l, (forall p, In p l -> forall i T, pgood ps x i p T) ->
               goodprims ps x (knew K k ++ l) s).
  { intros k l Hl. apply goodprims_app; intros s0.
    - apply goodprims_knew. - now apply goodprims_all. }
  assert (G1 : forall l, (forall p, In p l -> forall i T, pgood ps x i p T) ->
               goodprims ps x l s).
  { intros. now apply goodprims_all. }
  destruct c; simpl prims; try simpl in H.
  - apply G1. intros p [<-|[]] *. apply good_dflt.
  - apply G1. intros p [<-|[]] *. now apply good_const.
  - apply G1. intros p [<-|[]] *. apply good_copy.
  - destruct (Nat.eqb a r); [exact I|].
    apply G1. intros p [<-|[]] *. apply good_copy.
  - apply G1. intros q [<-|[]] *. unfold pgood; simpl. auto 10.
  - apply G1. intros q [<-|[<-|[]]] *; [apply good_dflt|].
    unfold pgood; simpl. auto 10.
  - apply G1. intros q [<-|[]] *. unfold pgood; simpl. auto 10.
  - simpl. split; auto. unfold pgood; simpl. repeat split; auto.
    intros l _. unfold upd. destruct (Nat.eqb_spec l r); congruence.
  - apply G1. intros q [<-|[]] *. unfold pgood; simpl. auto 10.
  - apply G1. intros q [<-|[]] *. apply wr_good. destruct e; repeat split.
  - apply G1. intros q [<-|[]] *. apply wr_good. destruct e; repeat split.
  - (* y += a*b *)
    apply KN. intros p Hp.
    destruct (fuse && negb (y =? a) && negb (y =? b)) eqn:E.
    + destruct Hp as [<-|[]]. intros i T.
      unfold pgood. simpl. destruct neg; simpl; repeat split; auto;
        intros l Hl; unfold upd; rewrite !Nat.eqb_refl;
        destruct (Nat.eqb_spec l y); auto;
        destruct (Nat.eqb_spec y (kres k a)); try congruence;
        destruct (Nat.eqb_spec l (kres k a)); auto;
        exfalso; apply Hl; auto.
    + destruct Hp as [<-|[<-|[]]]; intros; [apply good_bin|].
      apply wr_good. destruct neg; repeat split.
  - apply G1. intros q [<-|[]] *. apply wr_good. repeat split.
  - apply G1. intros q [<-|[]] *. apply wr_good. repeat split.
  - apply G1. intros q [<-|[<-|[<-|[]]]] *; auto using good_dflt, good_copy.
    apply wr_good. repeat split.
  - apply G1. intros q [<-|[<-|[<-|[]]]] *; auto using good_dflt, good_copy.
    apply wr_good. repeat split.
  - apply KN. intros q [<-|[]] *. apply good_un.
  - apply KN. intros q [<-|[]] *. apply wr_good. repeat split.
  - apply KN. intros q [<-|[]] *. apply good_bin.
  - apply G1. intros q [<-|[]] *. apply good_bin.
  - apply G1. intros q [<-|[<-|[]]] *; auto using good_un, good_bin.
  - apply KN. intros q [<-|[]] *. apply good_cst. destruct c; exact H || exact I.
  - (* sin *) destruct H as [H1 H2].
    apply KN. intros q [<-|[<-|[]]] i T; [apply good_dflt|].
    unfold pgood; simpl. repeat split; auto. intros l _.
    unfold upd. destruct (Nat.eqb_spec a b); [congruence|].
    destruct (Nat.eqb_spec l b), (Nat.eqb_spec l (kres k a)); congruence.
  - destruct H as [H1 H2].
    apply KN. intros q [<-|[<-|[]]] i T; [apply good_dflt|].
    unfold pgood; simpl. repeat split; auto. intros l _.
    unfold upd. destruct (Nat.eqb_spec a b); [congruence|].
    destruct (Nat.eqb_spec l b), (Nat.eqb_spec l (kres k a)); congruence.
  - (* asin .. *)
    destruct (is_helper f) eqn:Ef; [|exact I].
    apply goodprims_app; intros s0; [apply goodprims_knew|].
    apply goodprims_app; intros s1.
    + apply help_good.
    + apply goodprims_all. intros q [<-|[]] *. apply wr_good. repeat split.
  - (* fmin *)
    destruct k as [r|].
    + destruct H as (H1 & H2 & H3). split; [apply good_dflt|].
      rewrite rprim_dflt. split; [|exact I].
      apply wr_good. simpl. repeat split. intros l.
      simpl. unfold vmin. rewrite (@upd_neq _ r a _ H1), (@upd_neq _ r b _ H2).
      destruct H3 as [->| <-]; auto.
    + apply G1. intros q [<-|[]] *. apply wr_good. repeat split.
  - apply G1. intros q [<-|[]] *. apply wr_good. repeat split.
  - apply G1. intros q [<-|[]] *. apply wr_good. repeat split.
  - apply G1. intros q [<-|[]] i T. apply wr_good. repeat split.
    intros l. simpl. destruct (ltb K (zero K) (T cond)); auto.
    unfold upd. destruct (Nat.eqb_spec l res); congruence.
  - apply G1. intros q [<-|[]] *. apply wr_good. repeat split.
  - apply G1. intros q [<-|[]] i T. apply wr_good. repeat split.
    intros l. simpl. destruct (leb K (zero K) (T cond)); auto.
    unfold upd. destruct (Nat.eqb_spec l res); congruence.
  - apply G1. intros q [<-|[]] *. unfold pgood; simpl. auto 10.
  - apply G1. intros q [<-|[<-|[]]] *; [apply good_dflt|].
    unfold pgood; simpl. auto 10.
  - apply G1. intros q [<-|[]] *. unfold pgood; simpl. auto 10.
  - apply G1. intros q [<-|[<-|[]]] *; [apply good_dflt|].
    unfold pgood; simpl. rewrite H. auto 10.
  - apply G1. intros q [<-|[]] *. unfold pgood; simpl. rewrite H. auto 10.
  - apply G1. intros q [<-|[<-|[]]] *; [apply good_dflt|].
    apply wr_good. repeat split.
  - apply G1. intros q [<-|[]] *. apply wref_good. unfold eq0, eq1.
    destruct (eqb K c (zero K)) eqn:E0; [rewrite H by auto; repeat split|].
    destruct (eqb K c (one K)) eqn:E1; [rewrite (l_is1 L c E1)|]; repeat split.
  - destruct (Nat.eqb l a); [exact I|].
    apply G1. intros q [<-|[]] *. apply wref_good. repeat split.
  - apply G1. intros q [<-|[]] *. apply wref_good. repeat split.
  - apply G1. intros q [<-|[]] *. apply wref_good. repeat split.
  - apply G1. intros q [<-|[]] *. unfold pgood; simpl. auto 10.
  - apply G1. intros q [<-|[]] *. apply wref_good. destruct e; repeat split.
  - apply G1. intros q [<-|[]] *. apply wref_good. destruct e; repeat split.
  - apply G1. intros q [<-|[]] *. apply wref_good. repeat split.
  - apply G1. intros q [<-|[]] i T. apply wref_good. repeat split.
    intros l0. simpl. destruct (ltb K (zero K) (T cond)); auto.
    unfold upd. destruct (Nat.eqb_spec l0 (tgt T l)); congruence.
  - apply G1. intros q [<-|[]] *. apply wref_good. repeat split.
  - apply G1. intros q [<-|[]] i T. apply wref_good. repeat split.
    intros l0. simpl. destruct (leb K (zero K) (T cond)); auto.
    unfold upd. destruct (Nat.eqb_spec l0 (tgt T l)); congruence.
  - apply G1. intros q [<-|[]] *. unfold pgood; simpl. repeat split; auto.
    intros l Hl. apply upd_neq. intros ->. apply Hl. auto.
Qed.
End Good.

(* ------------------------------------------------------------------ *)
(* Comparisons *)

Lemma rel_same r v1 v2 : ordered K v2 ->
  rel_val K r v1 = rel_val K r v2 -> cmp_bad K (rel_op K r v1) v2 = false.
Proof.
  intros (O1 & O2 & O3 & O4 & O5 & O6) E. unfold rel_op, rel_val in *.
  destruct r;
  destruct (ltb K v2 (zero K)) eqn:A, (eqb K v2 (zero K)) eqn:B,
    (ltb K (zero K) v2) eqn:C; simpl in *; try discriminate; try congruence;
    rewrite ?O1, ?O2 in E; simpl in E;
    match type of E with
    | context [eqb K v1 (zero K)] => destruct (eqb K v1 (zero K))
    | context [leb K v1 (zero K)] => destruct (leb K v1 (zero K))
    | context [leb K (zero K) v1] => destruct (leb K (zero K) v1)
    | context [ltb K v1 (zero K)] => destruct (ltb K v1 (zero K))
    | context [ltb K (zero K) v1] => destruct (ltb K (zero K) v1)
    end; simpl in *; try congruence; unfold cmp_bad;
    rewrite ?O1, ?O2, ?A, ?B, ?C; auto.
Qed.

Lemma rel_diff r v1 v2 : ordered K v2 ->
  rel_val K r v1 <> rel_val K r v2 -> cmp_bad K (rel_op K r v1) v2 = true.
Proof.
  intros (O1 & O2 & O3 & O4 & O5 & O6) E. unfold rel_op, rel_val in *.
  destruct r;
  destruct (ltb K v2 (zero K)) eqn:A, (eqb K v2 (zero K)) eqn:B,
    (ltb K (zero K) v2) eqn:C; simpl in *; try discriminate; try congruence;
    rewrite ?O1, ?O2 in E; simpl in E;
    match type of E with
    | context [eqb K v1 (zero K)] => destruct (eqb K v1 (zero K))
    | context [leb K v1 (zero K)] => destruct (leb K v1 (zero K))
    | context [leb K (zero K) v1] => destruct (leb K (zero K) v1)
    | context [ltb K v1 (zero K)] => destruct (ltb K v1 (zero K))
    | context [ltb K (zero K) v1] => destruct (ltb K (zero K) v1)
    end; simpl in *; try congruence; unfold cmp_bad;
    rewrite ?O1, ?O2, ?A, ?B, ?C; auto.
Qed.

(* ------------------------------------------------------------------ *)
(* Programs *)

Lemma run_ops ps x p : forall s s' : rec K, run ps x p s = Some s' ->
  exists l, sops s' = sops s ++ l.
Proof.
  assert (P : forall l (s s' : rec K), rprims ps x l s = Some s' ->
            exists l, sops s' = sops s ++ l).
  { induction l as [|q l IH]; simpl; intros s s' H.
    - injection H as <-. exists []. now rewrite app_nil_r.
    - destruct (rprim ps x q s) as [sb|] eqn:Eq; [|discriminate].
      destruct (IH _ _ H) as [l1 E]. unfold rprim in Eq.
      destruct (p_fail q (sT s)); [discriminate|]. injection Eq as <-.
      simpl in E. rewrite <- app_assoc in E. eauto. }
  induction p as [|c p IH|r a pt IHt pf IHf]; simpl; intros s s' H.
  - injection H as <-. exists []. now rewrite app_nil_r.
  - destruct (rprims ps x (prims c) s) as [s1|] eqn:E; [|discriminate].
    destruct (P _ _ _ E) as [l1 E1]. destruct (IH _ _ H) as [l2 E2].
    exists (l1 ++ l2). now rewrite E2, E1, app_assoc.
  - destruct (rel_val K r (sT s a));
      [destruct (IHt _ _ H) as [l2 E2]|destruct (IHf _ _ H) as [l2 E2]];
      simpl in E2; rewrite <- app_assoc in E2; eauto.
Qed.

Lemma run_dec ps x p : forall s s' : rec K, run ps x p s = Some s' ->
  exists l, sd s' = sd s ++ l.
Proof.
  assert (P : forall l (s s' : rec K), rprims ps x l s = Some s' -> sd s' = sd s).
  { induction l as [|q l IH]; simpl; intros s s' H.
    - now injection H as <-.
    - destruct (rprim ps x q s) as [sb|] eqn:Eq; [|discriminate].
      rewrite (IH _ _ H). unfold rprim in Eq.
      destruct (p_fail q (sT s)); [discriminate|]. now injection Eq as <-. }
  induction p as [|c p IH|r a pt IHt pf IHf]; simpl; intros s s' H.
  - injection H as <-. exists []. now rewrite app_nil_r.
  - destruct (rprims ps x (prims c) s) as [s1|] eqn:E; [|discriminate].
    destruct (IH _ _ H) as [l2 E2]. exists l2. now rewrite E2, (P _ _ _ E).
  - destruct (rel_val K r (sT s a));
      [destruct (IHt _ _ H) as [l2 E2]|destruct (IHf _ _ H) as [l2 E2]];
      simpl in E2; rewrite <- app_assoc in E2; eauto.
Qed.

(* rprims keeps the decisions *)
Lemma rprims_sd ps x l : forall s s' : rec K, rprims ps x l s = Some s' -> sd s' = sd s.
Proof.
  induction l as [|q l IH]; simpl; intros s s' H.
  - now injection H as <-.
  - destruct (rprim ps x q s) as [sb|] eqn:Eq; [|discriminate].
    rewrite (IH _ _ H). unfold rprim in Eq.
    destruct (p_fail q (sT s)); [discriminate|]. now injection Eq as <-.
Qed.

(* The decisions still to be made by p when it is run at x from s. *)
Definition tail_dec (s s' : rec K) (l : list bool) := sd s' = sd s ++ l.

(* Main simulation. *)
Lemma run_sim (L : Laws K) ps1 x1 ps x p : forall s1 s1' s m D,
  okrun ps x p s D ->
  rel D s m ->
  run ps1 x1 p s1 = Some s1' ->
  exists l1, sops s1' = sops s1 ++ l1 /\
  match run ps x p s with
  | Some s' =>
      (exists d, sd s1' = sd s1 ++ d /\ sd s' = sd s ++ d /\
       exists m' D', zexec ps x l1 m = inl m' /\ rel D' s' m') \/
      (exists d1 d, sd s1' = sd s1 ++ d1 /\ sd s' = sd s ++ d /\ d1 <> d /\
       exists m', zexec ps x l1 m = inr (Done m') /\ frc m' = (-1)%Z)
  | None =>
      zexec ps x l1 m = inr (@Failed K) \/
      exists m', zexec ps x l1 m = inr (Done m') /\ frc m' = (-1)%Z
  end.
Proof.
  induction p as [|c p IH|r a pt IHt pf IHf]; intros s1 s1' s m D O R H; simpl in *.
  - injection H as <-. exists []. split; [now rewrite app_nil_r|].
    left. exists []. rewrite !app_nil_r. repeat split; auto.
    exists m, D. auto.
  - destruct O as [Oc Op].
    destruct (rprims ps1 x1 (prims c) s1) as [s1a|] eqn:E1; [|discriminate].
    destruct (@prims_sim ps1 x1 ps x (prims c) s1 s1a s m D _
                (prims_stable c) (@call_good L ps x s c Oc) Op R E1)
      as (l1 & El1 & Z).
    pose proof (@rprims_sd _ _ _ _ _ E1) as Sd1.
    destruct (rprims ps x (prims c) s) as [sa|] eqn:E.
    + destruct Z as (m' & D' & Z & R' & O').
      pose proof (@rprims_sd _ _ _ _ _ E) as Sd.
      destruct (IH s1a s1' sa m' D' O' R' H) as (l2 & El2 & W).
      exists (l1 ++ l2). split; [now rewrite El2, El1, app_assoc|].
      rewrite zexec_app, Z. rewrite <- Sd, <- Sd1. exact W.
    + destruct (@run_ops _ _ _ _ _ H) as [l2 El2].
      exists (l1 ++ l2). split; [now rewrite El2, El1, app_assoc|].
      left. now rewrite zexec_app, Z.
  - destruct O as (Da & Or & Op).
    destruct R as (A & I & Y & C).
    assert (Ea : sT s a = fT m a) by auto.
    set (s1b := rcmp r a s1) in *. set (sb := rcmp r a s) in *.
    set (o1 := Plain (Cmp K (rel_op K r (sT s1 a)) a)).
    assert (Eo : sops s1b = sops s1 ++ [o1]) by reflexivity.
    destruct (Bool.bool_dec (rel_val K r (sT s1 a)) (rel_val K r (sT s a)))
      as [Es|Es].
    + (* same outcome *)
      pose proof (@rel_same r (sT s1 a) _ Or Es) as Bd.
      assert (Zs : exists m1, zstep ps x o1 m = inl m1 /\ rel D sb m1).
      { unfold zstep, o1. simpl. rewrite <- Ea, Bd.
        eexists. split; [reflexivity|]. unfold rel; simpl.
        rewrite app_nil_r. repeat split; auto.
        destruct (rel_op K r (sT s1 a)); auto; try (unfold rc_ok; lia);
          match goal with |- context [if ?c then _ else _] => destruct c end;
          auto; unfold rc_ok; lia. }
      destruct Zs as (m1 & Zs & R1).
      assert (Sb1 : sd s1b = sd s1 ++ [rel_val K r (sT s a)])
        by (unfold s1b; simpl; now rewrite Es).
      assert (Sb : sd sb = sd s ++ [rel_val K r (sT s a)]) by reflexivity.
      rewrite Es in H.
      assert (W : forall q, (exists l1, sops s1' = sops s1b ++ l1 /\
        match run ps x q sb with
        | Some s' =>
          (exists d, sd s1' = sd s1b ++ d /\ sd s' = sd sb ++ d /\
             exists m' D', zexec ps x l1 m1 = inl m' /\ rel D' s' m') \/
          (exists d1 d, sd s1' = sd s1b ++ d1 /\ sd s' = sd sb ++ d /\ d1 <> d /\
             exists m', zexec ps x l1 m1 = inr (Done m') /\ frc m' = (-1)%Z)
        | None => zexec ps x l1 m1 = inr (@Failed K) \/
            exists m', zexec ps x l1 m1 = inr (Done m') /\ frc m' = (-1)%Z
        end) ->
        exists l1, sops s1' = sops s1 ++ l1 /\
        match run ps x q sb with
        | Some s' =>
          (exists d, sd s1' = sd s1 ++ d /\ sd s' = sd s ++ d /\
             exists m' D', zexec ps x l1 m = inl m' /\ rel D' s' m') \/
          (exists d1 d, sd s1' = sd s1 ++ d1 /\ sd s' = sd s ++ d /\ d1 <> d /\
             exists m', zexec ps x l1 m = inr (Done m') /\ frc m' = (-1)%Z)
        | None => zexec ps x l1 m = inr (@Failed K) \/
            exists m', zexec ps x l1 m = inr (Done m') /\ frc m' = (-1)%Z
        end).
      { intros q (l1 & El & W). exists (o1 :: l1).
        split; [rewrite El, Eo, <- app_assoc; reflexivity|].
        simpl. rewrite Zs.
        destruct (run ps x q sb) as [s'|]; [|exact W].
        destruct W as [(d & W1 & W2 & W3)|(d1 & d & W1 & W2 & W3 & W4)].
        - left. exists (rel_val K r (sT s a) :: d).
          rewrite W1, W2, Sb1, Sb, <- !app_assoc. auto.
        - right. exists (rel_val K r (sT s a) :: d1), (rel_val K r (sT s a) :: d).
          rewrite W1, W2, Sb1, Sb, <- !app_assoc.
          repeat split; auto. congruence. }
      destruct (rel_val K r (sT s a)); apply W; eauto.
    + (* the comparison comes out differently: the sweep stops *)
      pose proof (@rel_diff r (sT s1 a) _ Or Es) as Bd.
      assert (Zs : zstep ps x o1 m =
                inr (Done (mkF (fT m) (fi m) (fy m) (-1)%Z (fk m)))).
      { unfold zstep, o1. simpl. now rewrite <- Ea, Bd. }
      assert (exists l, sops s1' = sops s1b ++ l) as [l El].
      { destruct (rel_val K r (sT s1 a)); eapply run_ops; eauto. }
      exists (o1 :: l). split; [rewrite El, Eo, <- app_assoc; reflexivity|].
      simpl. rewrite Zs.
      assert (S1 : exists d, sd s1' = sd s1 ++ rel_val K r (sT s1 a) :: d).
      { destruct (rel_val K r (sT s1 a)) eqn:E1;
          destruct (@run_dec _ _ _ _ _ H) as [d Ed]; exists d; rewrite Ed;
          unfold s1b; simpl; rewrite E1, <- app_assoc; reflexivity. }
      destruct S1 as [d1 S1].
      assert (W : forall q, (forall s', run ps x q sb = Some s' ->
                    exists d, sd s' = sd s ++ rel_val K r (sT s a) :: d)).
      { intros q s' Hq. destruct (@run_dec _ _ _ _ _ Hq) as [d Ed].
        exists d. rewrite Ed. unfold sb. simpl. now rewrite <- app_assoc. }
      set (q := if rel_val K r (sT s a) then pt else pf).
      assert (Eq : (if rel_val K r (sT s a) then run ps x pt sb else run ps x pf sb)
                   = run ps x q sb)
        by (unfold q; now destruct (rel_val K r (sT s a))).
      rewrite Eq. specialize (W q).
      destruct (run ps x q sb) as [s'|].
      * destruct (W _ eq_refl) as [d Sd]. right.
        exists (rel_val K r (sT s1 a) :: d1), (rel_val K r (sT s a) :: d).
        repeat split; auto. { congruence. }
        eexists. split; [reflexivity|]. reflexivity.
      * right. eexists. split; [reflexivity|]. reflexivity.
Qed.

(* take_stock: the stocked locations get the values they had at trace_on *)
Lemma stock_exec ps x chunks : forall from T0 (m : fstate K) D,
  agree D T0 (fT m) ->
  exists m', zexec ps x (stock_ops T0 chunks from) m = inl m' /\
    fi m' = fi m /\ fy m' = fy m /\ frc m' = frc m /\ fk m' = fk m /\
    agree (fun l => D l \/ from <= l < from + fold_right plus 0 chunks) T0 (fT m').
Proof.
  induction chunks as [|n cs IH]; intros from T0 m D A; simpl.
  - exists m. repeat split; auto. intros l [?|?]; [auto|lia].
  - unfold zstep. simpl.
    set (m1 := mkF _ _ _ _ _).
    assert (A1 : agree (fun l => D l \/ from <= l < from + n) T0 (fT m1)).
    { intros l Hl. unfold m1. simpl. rewrite stock_val.
      destruct (Nat.leb_spec from l), (Nat.ltb_spec l (from + n)); simpl;
        try (apply A; destruct Hl; [auto|lia]).
      assert (Hn : l - from < length (map T0 (seq from n)))
        by (rewrite map_length, seq_length; lia).
      rewrite (nth_indep _ (zero K) (T0 from) Hn).
      rewrite (map_nth T0). rewrite seq_nth by lia. f_equal. lia. }
    destruct (IH (from + n) T0 m1 _ A1) as (m' & Z & E1 & E2 & E3 & E4 & A2).
    exists m'. repeat split; auto.
    + rewrite E2. unfold m1. simpl. now rewrite app_nil_r.
    + intros l Hl. apply A2. destruct Hl as [?|?]; auto.
      destruct (le_lt_dec (from + n) l); [right|left; right]; lia.
Qed.

End Replay.
