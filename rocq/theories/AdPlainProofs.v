(* A well-behaved program has the same values with and without tracing, and meets
   the side conditions of the simulation in AdReplay.v. *)
Require Import List ZArith Bool Arith Lia.
Require Import Verif.AdModel Verif.AdRecord Verif.AdSpec Verif.AdReplay Verif.AdPlain.
Import ListNotations.
Set Implicit Arguments.

Section Proofs.
Variable K : Arith.
Notation val := (V K).
Notation mem := (mem K).
Implicit Types (T : mem) (D : nat -> Prop).

Lemma vcopy_val n : forall arg res q T,
  apart (res + q) n (arg + q) n ->
  forall l, vcopy n arg res q T l =
    if in_range (res + q) n l then T (arg + (l - res)) else T l.
Proof.
  induction n; simpl; intros arg res q T A l.
  - unfold in_range. destruct (Nat.leb_spec (res + q) l), (Nat.ltb_spec l (res + q + 0));
      simpl; auto; lia.
  - unfold apart in A. rewrite IHn by (unfold apart; lia). unfold upd, in_range.
    destruct (Nat.eqb_spec l (res + q)) as [->|Ne].
    + destruct (Nat.leb_spec (res + S q) (res + q)), (Nat.leb_spec (res + q) (res + q)),
        (Nat.ltb_spec (res + q) (res + q + S n)); simpl; try lia.
      f_equal. lia.
    + destruct (Nat.leb_spec (res + S q) l), (Nat.leb_spec (res + q) l),
        (Nat.ltb_spec l (res + S q + n)), (Nat.ltb_spec l (res + q + S n)); simpl; try lia; auto.
      destruct (Nat.eqb_spec (arg + (l - res)) (res + q)); auto. lia.
Qed.

Lemma vdot_val n : forall a1 a2 r q T,
  (forall k, k < n -> r <> a1 + q + k /\ r <> a2 + q + k) ->
  forall l, vdot n a1 a2 r q T l =
    if Nat.eqb l r
    then fold_left (fun s k => add K s (mul K (T (a1 + k)) (T (a2 + k)))) (seq q n) (T r)
    else T l.
Proof.
  induction n; simpl; intros a1 a2 r q T H l.
  - destruct (Nat.eqb_spec l r); congruence.
  - rewrite IHn.
    2: { intros k Hk. specialize (H (S k)).
         replace (a1 + S q + k) with (a1 + q + S k) by lia.
         replace (a2 + S q + k) with (a2 + q + S k) by lia. apply H. lia. }
    destruct (Nat.eqb_spec l r) as [->|Ne]; [|now rewrite upd_neq].
    rewrite upd_eq.
    assert (E : forall ks s, (forall k, In k ks -> q < k < q + S n) ->
      fold_left (fun s k => add K s
        (mul K (upd T r (add K (T r) (mul K (T (a1 + q)) (T (a2 + q)))) (a1 + k))
               (upd T r (add K (T r) (mul K (T (a1 + q)) (T (a2 + q)))) (a2 + k)))) ks s =
      fold_left (fun s k => add K s (mul K (T (a1 + k)) (T (a2 + k)))) ks s).
    { induction ks as [|k ks IH]; simpl; intros s Hk; auto.
      destruct (Hk k (or_introl eq_refl)).
      rewrite !upd_neq by (specialize (H (k - q) ltac:(lia)); lia).
      apply IH. intros; apply Hk; auto. }
    apply E. intros k Hk. apply in_seq in Hk. lia.
Qed.

Lemma vaxpy_val n : forall arg a1 a2 res q T,
  apart (res + q) n arg 1 ->
  apart (res + q) n (a1 + q) n \/ res = a1 ->
  apart (res + q) n (a2 + q) n \/ res = a2 ->
  forall l, vaxpy n arg a1 a2 res q T l =
    if in_range (res + q) n l
    then add K (mul K (T arg) (T (a1 + (l - res)))) (T (a2 + (l - res)))
    else T l.
Proof.
  induction n; simpl; intros arg a1 a2 res q T A A1 A2 l.
  - unfold in_range. destruct (Nat.leb_spec (res + q) l), (Nat.ltb_spec l (res + q + 0));
      simpl; auto; lia.
  - unfold apart in *. rewrite IHn by lia. unfold upd, in_range.
    destruct (Nat.eqb_spec l (res + q)) as [->|Ne].
    + destruct (Nat.leb_spec (res + S q) (res + q)), (Nat.leb_spec (res + q) (res + q)),
        (Nat.ltb_spec (res + q) (res + q + S n)); simpl; try lia.
      replace (res + q - res) with q by lia. reflexivity.
    + destruct (Nat.leb_spec (res + S q) l), (Nat.leb_spec (res + q) l),
        (Nat.ltb_spec l (res + S q + n)), (Nat.ltb_spec l (res + q + S n)); simpl; try lia; auto.
      destruct (Nat.eqb_spec arg (res + q)); [lia|].
      destruct (Nat.eqb_spec (a1 + (l - res)) (res + q)); [lia|].
      destruct (Nat.eqb_spec (a2 + (l - res)) (res + q)); [lia|]. reflexivity.
Qed.

Section Call.
Variable L : Laws K.

Lemma truth_rel r v : truth K r v = rel_val K r v.
Proof. destruct r; reflexivity. Qed.


Ltac dn R Hd :=
  first [ solve [apply R; simpl; tauto] | solve [apply Hd; assumption]
        | split; [first [ solve [right; eexists; split; [left; reflexivity | simpl; tauto]]
                        | left; dn R Hd ]
                 | simpl; tauto ] ].

Ltac inn := simpl; tauto.
Ltac upds :=
  repeat match goal with
  | |- context [Nat.eqb ?a ?b] =>
      destruct (Nat.eqb_spec a b); [try subst|]
  end.

(* the records that build the derivative variable of asin .. erfc *)
Definition scratchy (a t : nat) (p : prim K) : Prop :=
  (forall ps x i T l, l <> t -> p_val p ps x i T l = T l) /\
  (forall T, p_fail p T = false) /\ p_ind p = false /\ (forall T, p_dep p T = []) /\
  p_lost p = [] /\
  (forall T o l, In o (p_op p T) -> In l (oreads T o) -> l = a \/ l = t).

Lemma scratchy_list ps x a t l : Forall (scratchy a t) l ->
  forall (s : rec K), exists s', rprims ps x l s = Some s' /\
    si s' = si s /\ sy s' = sy s /\ sd s' = sd s /\
    (forall j, j <> t -> sT s' j = sT s j) /\
    forall (Dt : nat -> Prop) (k : rec K -> (nat -> Prop) -> Prop),
      Dt a -> Dt t ->
      (forall D', (forall j, Dt j -> D' j) -> k s' D') ->
      okprims ps x l s Dt k.
Proof.
  induction 1 as [|p l (H1 & H2 & H3 & H4 & H5 & H6) HF IH]; intros s.
  - exists s. simpl. repeat split; auto.
  - unfold rprims. fold (@rprims K). simpl okprims. unfold rprim.
    rewrite H2, H3.
    edestruct IH as (s' & E & Ei & Ey & Ed & Et & Ok).
    exists s'.
    refine (conj E (conj Ei (conj _ (conj Ed (conj _ _))))).
    + rewrite Ey. simpl. now rewrite H4, app_nil_r.
    + intros j Hj. rewrite Et by auto. simpl. auto.
    + intros Dt k Da Dtt Hk. split.
      { intros o j Ho Hj. destruct (H6 _ _ _ Ho Hj) as [->| ->]; auto. }
      apply Ok.
      * unfold dnext. rewrite H5. split; auto.
      * unfold dnext. rewrite H5. split; auto.
      * intros D' HD. apply Hk. intros j Hj. apply HD. unfold dnext. rewrite H5.
        split; auto.
Qed.

Lemma scratchy_un u a t j : j = a \/ j = t -> scratchy a t (p_un K u j t).
Proof.
  intros H. unfold scratchy, p_un, wr; simpl. repeat split; auto.
  - intros. now apply upd_neq.
  - intros T o l [<-|[]] Hl. destruct u; simpl in Hl; intuition congruence.
Qed.
Lemma scratchy_bin u a t j1 j2 :
  j1 = a \/ j1 = t -> j2 = a \/ j2 = t -> scratchy a t (p_bin K u j1 j2 t).
Proof.
  intros H H'. unfold scratchy, p_bin, wr; simpl. repeat split; auto.
  - intros. now apply upd_neq.
  - intros T o l [<-|[]] Hl. destruct u; simpl in Hl; intuition congruence.
Qed.
Lemma scratchy_cst c cv a t : scratchy a t (p_cst K c cv t t).
Proof.
  unfold scratchy, p_cst, wr; simpl. repeat split; auto.
  - intros. now apply upd_neq.
  - intros T o l [<-|[]] Hl. unfold oreads in Hl. simpl in Hl.
    destruct c; simpl in Hl; unfold eq0, eq1 in Hl;
      repeat match type of Hl with context [if ?e then _ else _] => destruct e end;
      simpl in Hl; intuition congruence.
Qed.

(* all records but the first, which is adouble() *)
Lemma scratchy_help f a t : is_helper f = true ->
  exists l, help_prims K f a t = p_dflt K t :: l /\ Forall (scratchy a t) l.
Proof.
  intros H. destruct f; try discriminate; simpl; eexists; (split; [reflexivity|]);
    repeat first [ apply Forall_nil
                 | apply Forall_cons;
                   [first [apply scratchy_un; now auto | apply scratchy_bin; now auto
                          | apply scratchy_cst]|] ].
Qed.

Lemma call_plain ps x c (q : pst K) (s : rec K) (Dt : nat -> Prop)
    (k : rec K -> (nat -> Prop) -> Prop) :
  (forall l, In l (reads (pT q) c) -> pD q l) ->
  (forall l, In l (creates c) -> ~ In l (reads (pT q) c)) ->
  NoDup (creates c) ->
  allowed x (pi q) (pT q) c ->
  agree (pD q) (sT s) (pT q) -> si s = pi q ->
  (forall l, pD q l -> Dt l) ->
  callok x (si s) (sT s) c /\
  match meaning ps x (pi q) (pT q) c with
  | Some T' =>
      exists s', rprims ps x (prims c) s = Some s' /\
        si s' = pi (pnext c T' q) /\ sy s' = sy s ++ gives_output c (pT q) /\
        sd s' = sd s /\ agree (pD (pnext c T' q)) (sT s') T' /\
        ((forall D', (forall l, pD (pnext c T' q) l -> D' l) -> k s' D') ->
         okprims ps x (prims c) s Dt k)
  | None => rprims ps x (prims c) s = None /\ okprims ps x (prims c) s Dt k
  end.
Proof.
  intros Hr Hf Hn Ha A Ei Hd.
  assert (Q : forall l, In l (reads (pT q) c) -> sT s l = pT q l) by auto.
  assert (R : forall l, In l (reads (pT q) c) -> Dt l) by auto.
  Ltac ag Q A :=
      let l := fresh "l" in let Hl := fresh "Hl" in
      intros l Hl; simpl in Hl; unfold wref, wr, upd, tgt; simpl; unfold upd, tgt;
      repeat (rewrite Q by (simpl; tauto));
      upds; repeat (rewrite Q by (simpl; tauto));
      try reflexivity; try congruence; try (apply A; intuition congruence);
      try (intuition congruence).
  Ltac okp R Hd := 
      let Hk := fresh "Hk" in intros Hk; simpl;
      repeat match goal with
      | |- _ /\ _ => split
      | |- forall o l, _ -> _ => let l := fresh "l" in let Hl := fresh "Hl" in
           intros ? l [<-|[]] Hl; simpl in Hl;
           intuition (subst; dn R Hd)
      end;
      apply Hk; simpl; let l := fresh "l" in let Hl := fresh "Hl" in
      intros l Hl; intuition (subst; dn R Hd).
  Ltac easycase Q A R Hd :=
    split; [simpl; solve [auto | intuition] |];
    eexists; split; [reflexivity|];
    refine (conj _ (conj _ (conj _ (conj _ _))));
    [simpl; congruence | simpl; now rewrite ?app_nil_r | reflexivity
    | solve [ag Q A] | solve [okp R Hd] ].
  Ltac refcase Q A R Hd l q s :=
    let E := fresh "E" in
    assert (E : tgt (sT s) l = tonat K (pT q l)) by (unfold tgt; rewrite Q by (simpl; tauto); reflexivity); let E2 := fresh "E" in pose proof (eq_sym E) as E2;
    easycase Q A R Hd.
  assert (F := Hf); clear Hf.
  Ltac fresh1 F := let Hf := fresh "Hf" in
    pose proof (F _ (or_introl eq_refl)) as Hf; simpl in Hf.
  Ltac fresh2 F := let Hf := fresh "Hf" in
    pose proof (F _ (or_intror (or_introl eq_refl))) as Hf; simpl in Hf.
  destruct c.
  - easycase Q A R Hd.
  - simpl prims. unfold p_const, eq0, eq1.
    destruct (eqb K c (zero K)), (eqb K c (one K)); easycase Q A R Hd.
  - easycase Q A R Hd.
  - simpl prims. destruct (Nat.eqb_spec a r) as [->|Ne]; [|easycase Q A R Hd].
    split; [exact I|]. exists s.
    refine (conj eq_refl (conj Ei (conj _ (conj eq_refl (conj _ _))))).
    + simpl. now rewrite app_nil_r.
    + ag Q A.
    + intros Hk. simpl. apply Hk. simpl. intros l Hl.
      intuition (subst; auto). apply R. simpl. auto.
  - easycase Q A R Hd.
  - easycase Q A R Hd.
  - easycase Q A R Hd.
  - split; [simpl in *; rewrite Q, Ei by tauto; assumption|].
    eexists; split; [reflexivity|].
    refine (conj _ (conj _ (conj _ (conj _ _)))).
    + simpl; congruence.
    + reflexivity.
    + reflexivity.
    + ag Q A.
    + okp R Hd.
  - split; [exact I|].
    eexists; split; [reflexivity|].
    refine (conj _ (conj _ (conj _ (conj _ _)))).
    + simpl; congruence.
    + simpl. now rewrite Q by (simpl; auto).
    + reflexivity.
    + ag Q A.
    + okp R Hd.
  - destruct e; easycase Q A R Hd.
  - destruct e; easycase Q A R Hd.
  - simpl prims. simpl in Ha.
    destruct (fuse && negb (Nat.eqb y a) && negb (Nat.eqb y b)) eqn:Ef.
    + assert (y <> a /\ y <> b) as [Nya Nyb].
      { apply andb_prop in Ef. destruct Ef as [Ef1 Ef2]. apply andb_prop in Ef1.
        destruct Ef1 as [_ Ef1]. apply negb_true_iff in Ef1, Ef2.
        apply Nat.eqb_neq in Ef1, Ef2. auto. }
      destruct neg; (destruct k0; [fresh1 F|]); easycase Q A R Hd.
    + destruct neg; (destruct k0; [fresh1 F|]); easycase Q A R Hd.
  - easycase Q A R Hd.
  - easycase Q A R Hd.
  - fresh1 F. easycase Q A R Hd.
  - fresh1 F. easycase Q A R Hd.
  - destruct k0; [fresh1 F|]; destruct u; easycase Q A R Hd.
  - destruct k0; [fresh1 F|]; easycase Q A R Hd.
  - destruct k0; [fresh1 F|]; destruct b; easycase Q A R Hd.
  - easycase Q A R Hd.
  - (* a - b *) split; [exact I|]. eexists; split; [reflexivity|].
    refine (conj _ (conj _ (conj _ (conj _ _)))).
    + simpl; congruence.
    + simpl; now rewrite ?app_nil_r.
    + reflexivity.
    + intros l Hl. simpl in Hl. simpl. unfold upd.
      rewrite Nat.eqb_refl.
      destruct (Nat.eqb_spec l b) as [->|]; [|apply A; intuition congruence].
      rewrite (Q b) by (simpl; auto).
      destruct (Nat.eqb_spec a b) as [->|]; [simpl in Ha; congruence|].
      rewrite (Q a) by (simpl; auto). apply (l_negadd L).
    + okp R Hd.
  - simpl prims. unfold p_cst.
    destruct c; simpl cst_op; unfold eq0, eq1;
      repeat match goal with |- context [if eqb K cv ?z then _ else _] =>
               destruct (eqb K cv z) eqn:? end;
      (destruct k0; [fresh1 F|]); easycase Q A R Hd.
  - simpl in Hn. inversion Hn as [|? ? Hn1 Hn2]; subst. fresh1 F.
    destruct k0; [fresh2 F; simpl in Hn1|]; easycase Q A R Hd.
  - simpl in Hn. inversion Hn as [|? ? Hn1 Hn2]; subst. fresh1 F.
    destruct k0; [fresh2 F; simpl in Hn1|]; easycase Q A R Hd.
  - (* asin .. *) simpl meaning. simpl prims.
    destruct (is_helper f) eqn:Eh.
    2: { split; [exact I|]. exists s. split; [reflexivity|]. simpl.
         rewrite app_nil_r. refine (conj Ei (conj eq_refl (conj eq_refl (conj _ _)))).
         - intros l Hl. apply A. rewrite Eh in Hl. intuition.
         - intros Hk. apply Hk. intros l Hl. rewrite Eh in Hl. apply Hd. intuition. }
    destruct (@scratchy_help f a t Eh) as (hl & -> & HS).
    simpl in Hn. inversion Hn as [|? ? Hn1 Hn2]; subst. fresh1 F.
    set (fin := wr (fun _ : mem => Plain (HelpOp K f a t (kres k0 a))) (kres k0 a)
                   (fun T : mem => fn K f (T a))).
    assert (G : forall (s0 : rec K), (forall l, pD q l -> ~ In l (newk k0) -> sT s0 l = sT s l) ->
      si s0 = si s -> sy s0 = sy s -> sd s0 = sd s ->
      exists s', rprims ps x ((p_dflt K t :: hl) ++ [fin]) s0 = Some s' /\
        si s' = si s /\ sy s' = sy s /\ sd s' = sd s /\
        agree (pD (pnext (CHelp K f k0 a t) (upd (pT q) (kres k0 a) (fn K f (pT q a))) q))
              (sT s') (upd (pT q) (kres k0 a) (fn K f (pT q a))) /\
        forall D0 : nat -> Prop, (forall l, pD q l -> D0 l) ->
        ((forall D', (forall l, pD (pnext (CHelp K f k0 a t)
             (upd (pT q) (kres k0 a) (fn K f (pT q a))) q) l -> D' l) -> k s' D') ->
         okprims ps x ((p_dflt K t :: hl) ++ [fin]) s0 D0 k)).
    { intros s0 E0 Ei0 Ey0 Ed0.
      set (s1 := mkRec (upd (sT s0) t (zero K)) (si s0)
                  (sops s0 ++ [Plain (AssignD0 K t)]) (sT s0 t :: sk s0) (sy s0 ++ [])
                  (sd s0)).
      assert (Es1 : rprim ps x (p_dflt K t) s0 = Some s1) by reflexivity.
      destruct (@scratchy_list ps x a t hl HS s1) as (s2 & E2 & Ei2 & Ey2 & Ed2 & Et2 & Ok2).
      assert (App : rprims ps x (hl ++ [fin]) s1 = rprims ps x [fin] s2).
      { assert (Gen : forall hl (s1 : rec K), rprims ps x hl s1 = Some s2 ->
                  rprims ps x (hl ++ [fin]) s1 = rprims ps x [fin] s2).
        { clear. induction hl as [|p hl IH]; simpl; intros s1 E2.
          - injection E2 as <-. reflexivity.
          - destruct (rprim ps x p s1); [auto|discriminate]. }
        auto. }
      exists (mkRec (upd (sT s2) (kres k0 a) (fn K f (sT s2 a))) (si s2)
               (sops s2 ++ [Plain (HelpOp K f a t (kres k0 a))])
               (sT s2 (kres k0 a) :: sk s2) (sy s2 ++ []) (sd s2)).
      split.
      { change ((p_dflt K t :: hl) ++ [fin]) with (p_dflt K t :: (hl ++ [fin])).
        unfold rprims. fold (@rprims K). rewrite Es1, App. reflexivity. }
      assert (Nta : t <> a) by (intros ->; apply Hf; auto).
      assert (Ta : sT s2 a = pT q a).
      { rewrite Et2 by auto. unfold s1. simpl. rewrite upd_neq by auto.
        rewrite E0; [apply Q; simpl; auto|apply Hr; simpl; auto|].
        intros Hin. apply (F a); [|simpl; auto]. simpl. auto. }
      simpl.
      refine (conj _ (conj _ (conj _ (conj _ _)))).
      - rewrite Ei2. unfold s1. simpl. congruence.
      - rewrite Ey2. unfold s1. simpl. rewrite !app_nil_r. congruence.
      - rewrite Ed2. unfold s1. simpl. congruence.
      - intros l [Hl Hl2]. simpl in Hl2. unfold upd. rewrite Ta.
        destruct (Nat.eqb_spec l (kres k0 a)) as [|Nk]; auto.
        rewrite Et2 by (intros ->; apply Hl2; auto). unfold s1. simpl.
        rewrite upd_neq by (intros ->; apply Hl2; auto).
        rewrite Eh in Hl. simpl in Hl.
        assert (pD q l) by (destruct Hl as [?|[?|[]]]; congruence).
        rewrite E0; auto. intros Hin. destruct k0; simpl in *; [|auto].
        destruct Hin as [->|[]]. congruence.
      - intros D0 HD0 Hk.
        change ((p_dflt K t :: hl) ++ [fin]) with (p_dflt K t :: (hl ++ [fin])).
        assert (Dx : forall l, pD q l -> dnext D0 (p_dflt K t) (sT s0) l).
        { intros l Hl. split; [left; auto|simpl; tauto]. }
        assert (Dtt : dnext D0 (p_dflt K t) (sT s0) t).
        { split; [right; eexists; split; [left; reflexivity|simpl; auto]|simpl; tauto]. }
        change (okprims ps x (p_dflt K t :: hl ++ [fin]) s0 D0 k) with
          ((forall o l, In o (p_op (p_dflt K t) (sT s0)) -> In l (oreads (sT s0) o) -> D0 l) /\
           okprims ps x (hl ++ [fin]) s1 (dnext D0 (p_dflt K t) (sT s0)) k).
        split.
        { intros o l [<-|[]] Hl. simpl in Hl. tauto. }
        assert (AppOk : forall hl (s1 : rec K) D1,
          okprims ps x hl s1 D1 (fun s' D' => okprims ps x [fin] s' D' k) ->
          okprims ps x (hl ++ [fin]) s1 D1 k).
        { clear. induction hl as [|p hl IH]; simpl; intros s1 D1 H; auto.
          destruct H as [H1 H2]. split; auto. destruct (rprim ps x p s1); auto. }
        apply AppOk. apply Ok2; auto.
        { apply Dx, Hr. simpl. auto. }
        intros D' HD'. simpl okprims. split.
        { intros o l [<-|[]] Hl. simpl in Hl. destruct Hl as [<-|[]].
          apply HD', Dx, Hr. simpl. auto. }
        simpl. apply Hk. simpl. rewrite Eh. intros l [[Hl|[<-|[]]] Hl2].
        + split; [left; auto|simpl; tauto].
        + split; [right; eexists; split; [left; reflexivity|simpl; auto]|simpl; tauto]. }
    split; [exact I|].
    destruct k0 as [r|].
    + fresh2 F.
      destruct (G (mkRec (upd (sT s) r (zero K)) (si s)
                  (sops s ++ [Plain (AssignD0 K r)]) (sT s r :: sk s) (sy s ++ [])
                  (sd s))) as (s' & E & Ei' & Ey' & Ed' & Ag' & Ok'); simpl; auto.
      { intros l _ Hl. apply upd_neq. intros ->. simpl in Hl. tauto. }
      { apply app_nil_r. }
      exists s'. split; [exact E|].
      refine (conj _ (conj (eq_trans Ey' (eq_sym (app_nil_r _))) (conj Ed' (conj Ag' _))));
        [simpl; congruence|].
      intros Hk. split.
      { intros o l [<-|[]] Hl. simpl in Hl. tauto. }
      apply Ok'; auto. intros l Hl. split; [left; auto|simpl; tauto].
    + destruct (G s) as (s' & E & Ei' & Ey' & Ed' & Ag' & Ok'); auto.
      exists s'. split; [exact E|].
      refine (conj _ (conj (eq_trans Ey' (eq_sym (app_nil_r _))) (conj Ed' (conj Ag' _))));
        [simpl; congruence|].
      intros Hk. apply Ok'; auto.
  - (* fmin *) destruct k0 as [r|]; [fresh1 F|easycase Q A R Hd].
    assert (a <> r /\ b <> r) as [Na Nb] by (split; intros ->; apply Hf; auto).
    simpl in Ha. split.
    { simpl. rewrite !Q by (simpl; auto). auto. }
    eexists; split; [reflexivity|].
    refine (conj _ (conj _ (conj _ (conj _ _)))).
    + simpl; congruence.
    + simpl; now rewrite ?app_nil_r.
    + reflexivity.
    + intros l Hl. simpl in Hl. simpl. unfold upd.
      destruct (Nat.eqb_spec a r); [congruence|]. destruct (Nat.eqb_spec b r); [congruence|].
      destruct (Nat.eqb_spec l r); [|apply A; intuition congruence].
      rewrite !Q by (simpl; auto). destruct Ha as [->| <-]; auto.
    + okp R Hd.
  - easycase Q A R Hd.
  - easycase Q A R Hd.
  - Ltac cndcase Q A R Hd := split; [exact I|]; simpl meaning;
    eexists; split; [reflexivity|];
    refine (conj _ (conj _ (conj _ (conj _ _))));
    [ simpl; congruence | simpl; now rewrite ?app_nil_r | reflexivity
    | let l := fresh "l" in let Hl := fresh "Hl" in
      intros l Hl; simpl in Hl; simpl; unfold upd, tgt;
      repeat (rewrite Q by (simpl; tauto));
      match goal with |- context [if ?e then _ else _] =>
        match e with context [Nat.eqb] => fail 1 | _ => destruct e end end;
      upds; rewrite ?Q by (simpl; tauto); try reflexivity; apply A; intuition congruence
    | okp R Hd ].
    cndcase Q A R Hd.
  - easycase Q A R Hd.
  - cndcase Q A R Hd.
  - (* vec_copy *) simpl in Ha. split; [exact I|]. eexists; split; [reflexivity|].
    refine (conj _ (conj _ (conj _ (conj _ _)))).
    + simpl; congruence.
    + simpl; now rewrite ?app_nil_r.
    + reflexivity.
    + intros l Hl. simpl in Hl. simpl. rewrite vcopy_val by now rewrite !Nat.add_0_r.
      rewrite Nat.add_0_r. unfold in_range.
      destruct (Nat.leb_spec dst l), (Nat.ltb_spec l (dst + n)); simpl;
        try (apply A; destruct Hl as [[Hl|Hl] _]; auto; apply in_seq in Hl; lia).
      apply Q. simpl. apply in_seq. lia.
    + intros Hk. simpl. split.
      { intros o l [<-|[]] Hl. apply R. exact Hl. }
      apply Hk. simpl. intros l [[Hl|Hl] _]; split; try (simpl; tauto); auto.
      right. eexists. split; [left; reflexivity|]. exact Hl.
  - (* vec_dot *) fresh1 F. split; [exact I|]. eexists; split; [reflexivity|].
    assert (NR : forall j, j < n -> r <> va + 0 + j /\ r <> vb + 0 + j).
    { intros j Hj. split; intros ->; apply Hf; apply in_app_iff;
        [left|right]; apply in_seq; lia. }
    refine (conj _ (conj _ (conj _ (conj _ _)))).
    + simpl; congruence.
    + simpl; now rewrite ?app_nil_r.
    + reflexivity.
    + intros l Hl. simpl in Hl. simpl. rewrite vdot_val by exact NR.
      rewrite upd_eq.
      destruct (Nat.eqb_spec l r) as [->|Ne].
      2: { rewrite !upd_neq by auto. apply A; intuition congruence. }
      rewrite upd_eq.
      assert (Z : forall ks z, (forall j, In j ks -> j < n) ->
        fold_left (fun s0 k1 => add K s0
          (mul K (upd (upd (sT s) r (zero K)) r (zero K) (va + k1))
                 (upd (upd (sT s) r (zero K)) r (zero K) (vb + k1)))) ks z =
        fold_left (fun s0 k1 => add K s0 (mul K (pT q (va + k1)) (pT q (vb + k1)))) ks z).
      { induction ks as [|j ks IH]; simpl; intros z Hj; auto.
        destruct (NR j) as [N1 N2]; [apply Hj; auto|]. rewrite Nat.add_0_r in *.
        rewrite !upd_neq by auto. rewrite !Q; [apply IH; intros; apply Hj; auto| |];
          simpl; apply in_app_iff; [right|left]; apply in_seq;
          specialize (Hj j (or_introl eq_refl)); lia. }
      apply Z. intros j Hj. apply in_seq in Hj. lia.
    + intros Hk. simpl. split; [|split].
      { intros o l [<-|[]] Hl. simpl in Hl. tauto. }
      { intros o l [<-|[]] Hl. split; [left; apply R; exact Hl|simpl; tauto]. }
      apply Hk. simpl. intros l Hl. intuition (subst; dn R Hd).
  - (* vec_axpy *) simpl in Ha. destruct Ha as (Ha1 & Ha2 & Ha3).
    split; [exact I|]. eexists; split; [reflexivity|].
    refine (conj _ (conj _ (conj _ (conj _ _)))).
    + simpl; congruence.
    + simpl; now rewrite ?app_nil_r.
    + reflexivity.
    + intros l Hl. simpl in Hl. simpl.
      rewrite vaxpy_val by (rewrite ?Nat.add_0_r; assumption).
      rewrite Nat.add_0_r. unfold in_range.
      destruct (Nat.leb_spec res l), (Nat.ltb_spec l (res + n)); simpl;
        try (apply A; destruct Hl as [[Hl|Hl] _]; auto; apply in_seq in Hl; lia).
      rewrite !Q; auto; simpl; auto; right; apply in_app_iff;
        [right|left]; apply in_seq; lia.
    + intros Hk. simpl. split.
      { intros o l [<-|[]] Hl. apply R. exact Hl. }
      apply Hk. simpl. intros l [[Hl|Hl] _]; split; try (simpl; tauto); auto.
      right. eexists. split; [left; reflexivity|]. exact Hl.
  - (* v[i] *) fresh1 F. simpl in Ha. split; [exact Ha|].
    simpl meaning. simpl prims.
    assert (Ni : idx <> r) by (intros ->; apply Hf; auto).
    assert (Ti : tgt (upd (sT s) r (zero K)) idx = tonat K (pT q idx)).
    { unfold tgt. rewrite upd_neq by auto. now rewrite Q by (simpl; auto). }
    set (p1 := mkP _ _ _ _ _ _ _).
    set (s1 := mkRec (upd (sT s) r (zero K)) (si s)
                  (sops s ++ [Plain (AssignD0 K r)]) (sT s r :: sk s) (sy s ++ [])
                  (sd s)).
    assert (E1 : rprims ps x [p_dflt K r; p1] s = rprims ps x [p1] s1) by reflexivity.
    assert (E2 : okprims ps x [p_dflt K r; p1] s Dt k =
      ((forall o l, In o (p_op (p_dflt K r) (sT s)) -> In l (oreads (sT s) o) -> Dt l) /\
       okprims ps x [p1] s1 (dnext Dt (p_dflt K r) (sT s)) k)) by reflexivity.
    rewrite E1, E2. simpl rprims. simpl okprims. unfold rprim.
    assert (Ef : p_fail p1 (sT s1) = (n <=? tonat K (pT q idx)))
      by (unfold p1, s1; simpl; now rewrite Ti).
    rewrite Ef.
    assert (O1 : forall o l, Plain (AssignD0 K r) = o \/ False -> In l (oreads (sT s) o) -> Dt l)
      by (intros o l [<-|[]] Hl; simpl in Hl; tauto).
    destruct (Nat.leb_spec n (tonat K (pT q idx))) as [Hb|Hb].
    { split; [reflexivity|]. split; [exact O1|]. split; [|exact I].
      intros o l [<-|[]] Hl. unfold oreads in Hl. simpl in Hl.
      rewrite Ti, Ha in Hl. destruct (Nat.leb_spec n (tonat K (pT q idx))); [|lia].
      destruct Hl as [<-|[]].
      split; [left; apply R; simpl; auto|simpl; tauto]. }
    eexists. split; [reflexivity|].
    assert (Nv : vec + tonat K (pT q idx) <> r).
    { intros Hv. apply Hf. right. apply in_seq. lia. }
    assert (Iv : In (vec + tonat K (pT q idx)) (seq vec n)) by (apply in_seq; lia).
    refine (conj _ (conj _ (conj _ (conj _ _)))).
    + simpl; congruence.
    + simpl; now rewrite ?app_nil_r.
    + reflexivity.
    + intros l Hl. simpl in Hl. unfold s1, p1. simpl. rewrite Ti.
      destruct (Nat.eq_dec l r) as [->|Ne].
      * rewrite !upd_eq, upd_neq by auto. apply Q. simpl. auto.
      * rewrite !upd_neq by auto. apply A. intuition congruence.
    + intros Hk. split; [exact O1|]. split.
      { intros o l [<-|[]] Hl. unfold oreads in Hl. simpl in Hl.
        rewrite Ti, Ha in Hl. destruct (Nat.leb_spec n (tonat K (pT q idx))); [lia|].
        simpl in Hl. destruct Hl as [<-|[<-|[]]];
          (split; [left; apply R; simpl; auto|simpl; tauto]). }
      apply Hk. simpl. intros l Hl. intuition (subst; dn R Hd).
  - (* v[i], reference *) fresh1 F. simpl in Ha. split; [exact Ha|].
    simpl meaning. simpl prims.
    assert (Ti : tgt (sT s) idx = tonat K (pT q idx)).
    { unfold tgt. now rewrite Q by (simpl; auto). }
    simpl. unfold rprim. simpl. rewrite Ti.
    assert (O1 : forall o l0, SubscriptRef K idx vec l (ofnat K n) = o \/ False ->
                 In l0 (oreads (sT s) o) -> Dt l0).
    { intros o l0 [<-|[]] Hl. unfold oreads in Hl. simpl in Hl. rewrite Ti in Hl.
      destruct (tonat K (ofnat K n) <=? tonat K (pT q idx)); simpl in Hl;
        destruct Hl as [<-|[]]; apply R; simpl; auto. }
    destruct (Nat.leb_spec n (tonat K (pT q idx))) as [Hb|Hb].
    { split; [reflexivity|]. split; [exact O1|exact I]. }
    eexists. split; [reflexivity|].
    refine (conj _ (conj _ (conj _ (conj _ _)))).
    + simpl; congruence.
    + simpl; now rewrite ?app_nil_r.
    + reflexivity.
    + intros j Hl. simpl in Hl. simpl. unfold upd.
      destruct (Nat.eqb_spec j l) as [->|Ne]; auto. apply A. intuition congruence.
    + intros Hk. split; [exact O1|].
      apply Hk. simpl. intros j Hl. intuition (subst; dn R Hd).
  - (* *ref *) fresh1 F.
    assert (N1 : l <> r) by (intros ->; apply Hf; auto).
    assert (N2 : tonat K (pT q l) <> r) by (intros Hv; apply Hf; auto).
    assert (Ti : tgt (upd (sT s) r (zero K)) l = tonat K (pT q l)).
    { unfold tgt. rewrite upd_neq by auto. now rewrite Q by (simpl; auto). }
    split; [exact I|]. eexists. split; [reflexivity|].
    refine (conj _ (conj _ (conj _ (conj _ _)))).
    + simpl; congruence.
    + simpl; now rewrite ?app_nil_r.
    + reflexivity.
    + intros j Hl. simpl in Hl. simpl. rewrite Ti.
      destruct (Nat.eq_dec j r) as [->|Ne].
      * rewrite !upd_eq, upd_neq by auto. apply Q. simpl. auto.
      * rewrite !upd_neq by auto. apply A. intuition congruence.
    + intros Hk. simpl. split; [|split].
      { intros o j [<-|[]] Hl. simpl in Hl. tauto. }
      { intros o j [<-|[]] Hl. unfold oreads in Hl. simpl in Hl. rewrite Ti in Hl.
        destruct Hl as [<-|[<-|[]]];
          (split; [left; apply R; simpl; auto|simpl; tauto]). }
      apply Hk. simpl. intros j Hl. intuition (subst; dn R Hd).
  - simpl prims. unfold eq0, eq1. destruct (eqb K c (zero K)), (eqb K c (one K)); refcase Q A R Hd l q s.
  - simpl prims. simpl in Ha.
    destruct (Nat.eqb_spec l a) as [->|Ne]; [congruence|]. refcase Q A R Hd l q s.
  - refcase Q A R Hd l q s.
  - refcase Q A R Hd l q s.
  - refcase Q A R Hd l q s.
  - destruct e; refcase Q A R Hd l q s.
  - destruct e; refcase Q A R Hd l q s.
  - refcase Q A R Hd l q s.
  - assert (E : tgt (sT s) l = tonat K (pT q l))
      by (unfold tgt; rewrite Q by (simpl; tauto); reflexivity).
    pose proof (eq_sym E) as E'. cndcase Q A R Hd.
  - refcase Q A R Hd l q s.
  - assert (E : tgt (sT s) l = tonat K (pT q l))
      by (unfold tgt; rewrite Q by (simpl; tauto); reflexivity).
    pose proof (eq_sym E) as E'. cndcase Q A R Hd.
  - split; [exact I|]. eexists. split; [reflexivity|].
    refine (conj _ (conj _ (conj _ (conj _ _)))).
    + simpl; congruence.
    + simpl; now rewrite ?app_nil_r.
    + reflexivity.
    + intros j [Hl Hl2]. simpl in Hl, Hl2. simpl.
      rewrite !upd_neq by (intros ->; apply Hl2; auto). apply A. tauto.
    + intros Hk. simpl. split; [intros o j []|].
      apply Hk. simpl. intros j Hl. split; [left; apply Hd|]; simpl; tauto.
Qed.

End Call.
End Proofs.
