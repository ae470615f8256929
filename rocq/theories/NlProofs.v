(* Proofs for C19: four sweeps, at x, x + h e_i, x + k e_j and x + h e_i + k e_j. *)
From Coq Require Import List ZArith Bool Arith Lia Reals Lra.
Require Import Verif.AdModel Verif.AdSpec Verif.AdReal Verif.SpModel Verif.SpSpec
  Verif.SpProofs Verif.NlModel Verif.NlSpec.
Import ListNotations.
Set Implicit Arguments.
Unset Asymmetric Patterns.
Local Open Scope R_scope.

Inductive corner := C00 | C10 | C01 | C11.

Section Val.
Variables i j : nat.

Definition still_i (v : corner -> R) := v C10 = v C00 /\ v C11 = v C01.
Definition still_j (v : corner -> R) := v C01 = v C00 /\ v C11 = v C10.
Definition flat (v : corner -> R) := v C11 + v C00 = v C10 + v C01.
Definition good (L : option (list nat)) (v : corner -> R) : Prop :=
  flat v /\ forall l, L = Some l -> (~ In i l -> still_i v) /\ (~ In j l -> still_j v).

Lemma still_i_flat v : still_i v -> flat v.
Proof. intros [A B]. unfold flat. rewrite A, B. ring. Qed.
Lemma still_j_flat v : still_j v -> flat v.
Proof. intros [A B]. unfold flat. rewrite A, B. ring. Qed.

Lemma good_const L (c : R) : good L (fun _ => c).
Proof. split; [unfold flat; ring|]. intros; split; intros; split; reflexivity. Qed.
Lemma good_eq L v w : (forall q, v q = w q) -> good L v -> good L w.
Proof.
  intros E [F G]. unfold flat, still_i, still_j in *. split; [unfold flat|].
  - rewrite <- !E. exact F.
  - intros l H. destruct (G l H) as [A B]. unfold still_i, still_j in *. rewrite <- !E. auto.
Qed.
Lemma good_some l v w : good (Some l) v -> flat w -> (still_i v -> still_i w) -> (still_j v -> still_j w) ->
  good (Some l) w.
Proof. intros [F G] FW HI HJ. split; auto. intros l' [= <-]. destruct (G l eq_refl). auto. Qed.
Lemma good_any v : flat v -> good None v.
Proof. intros F. split; auto. discriminate. Qed.
Lemma good_affine L v a c : good L v -> good L (fun q => a * v q + c).
Proof.
  intros [F G]. unfold flat, still_i, still_j in *. split.
  - unfold flat. nra.
  - intros l H. destruct (G l H) as [A B]. unfold still_i, still_j in *.
    split; intros N; [destruct (A N) as [-> ->]|destruct (B N) as [-> ->]]; split; reflexivity.
Qed.
Definition join (a b : option (list nat)) : option (list nat) :=
  match a, b with Some x, Some y => Some (x ++ y) | _, _ => None end.
Lemma good_lin a b v w p q : good a v -> good b w ->
  good (join a b) (fun c => p * v c + q * w c).
Proof.
  intros [F G] [F' G']. split.
  - unfold flat in *. nra.
  - intros l H. destruct a as [a|], b as [b|]; try discriminate. cbn in H. injection H as <-.
    destruct (G a eq_refl) as [A B]. destruct (G' b eq_refl) as [A' B'].
    split; intros N; rewrite in_app_iff in N.
    + destruct A as [A1 A2]; auto. destruct A' as [A3 A4]; auto. split; congruence.
    + destruct B as [A1 A2]; auto. destruct B' as [A3 A4]; auto. split; congruence.
Qed.
Lemma good_un l v (f : R -> R) : good (Some l) v -> ~ (In i l /\ In j l) ->
  good (Some l) (fun q => f (v q)).
Proof.
  intros [F G] N. destruct (G l eq_refl) as [A B].
  assert (I : still_i v -> still_i (fun q => f (v q))) by (intros [H1 H2]; split; congruence).
  assert (J : still_j v -> still_j (fun q => f (v q))) by (intros [H1 H2]; split; congruence).
  split; [|intros l' [= <-]; auto].
  destruct (in_dec Nat.eq_dec i l); [|now apply still_i_flat; auto].
  destruct (in_dec Nat.eq_dec j l); [tauto|]. apply still_j_flat; auto.
Qed.
Lemma good_bin a b v w (f : R -> R -> R) :
  good (Some a) v -> good (Some b) w ->
  flat (fun q => f (v q) (w q)) ->
  good (Some (a ++ b)) (fun q => f (v q) (w q)).
Proof.
  intros [F G] [F' G'] FL. split; auto. intros l [= <-].
  destruct (G a eq_refl) as [A B]. destruct (G' b eq_refl) as [A' B'].
  split; intros N; rewrite in_app_iff in N.
  - destruct A as [A1 A2]; auto. destruct A' as [A3 A4]; auto. split; congruence.
  - destruct B as [A1 A2]; auto. destruct B' as [A3 A4]; auto. split; congruence.
Qed.
Lemma flat_mul a b v w : good (Some a) v -> good (Some b) w ->
  ~ (In i a /\ In j b) -> ~ (In i b /\ In j a) -> flat (fun q => v q * w q).
Proof.
  intros [F G] [F' G'] N1 N2.
  destruct (G a eq_refl) as [A B]. destruct (G' b eq_refl) as [A' B'].
  destruct (in_dec Nat.eq_dec i a) as [Ia|Ia]; destruct (in_dec Nat.eq_dec j b) as [Jb|Jb]; try tauto.
  - destruct (B' Jb) as [E1 E2].
    destruct (in_dec Nat.eq_dec j a) as [Ja|Ja].
    + destruct (in_dec Nat.eq_dec i b) as [Ib|Ib]; [tauto|]. destruct (A' Ib) as [E3 E4].
      unfold flat in *. rewrite E2, E3, E1 in *. nra.
    + destruct (B Ja) as [E3 E4]. unfold flat. rewrite E1, E2, E3, E4. ring.
  - destruct (A Ia) as [E1 E2]. destruct (in_dec Nat.eq_dec j a) as [Ja|Ja].
    + destruct (in_dec Nat.eq_dec i b) as [Ib|Ib]; [tauto|]. destruct (A' Ib) as [E3 E4].
      unfold flat. rewrite E1, E2, E3, E4. ring.
    + destruct (B Ja) as [E3 E4]. unfold flat in *. rewrite E2, E1, E3 in *. nra.
  - destruct (A Ia) as [E1 E2]. destruct (B' Jb) as [E3 E4].
    destruct (in_dec Nat.eq_dec j a) as [Ja|Ja].
    + destruct (in_dec Nat.eq_dec i b) as [Ib|Ib]; [tauto|]. destruct (A' Ib) as [E5 E6].
      unfold flat. rewrite E1, E2, E5, E6. ring.
    + destruct (B Ja) as [E5 E6]. unfold flat. rewrite E5, E6, E3, E4. ring.
Qed.
Lemma flat_div a b v w : good (Some a) v -> good (Some b) w ->
  ~ (In i a /\ In j b) -> ~ (In i b /\ In j a) -> ~ (In i b /\ In j b) -> flat (fun q => v q / w q).
Proof.
  intros Ga Gb N1 N2 N3. apply (@flat_mul a b v (fun q => / w q)); auto.
  now apply good_un.
Qed.
Lemma good_add a b v w : good a v -> good b w -> good (join a b) (fun c => v c + w c).
Proof. intros A B. eapply good_eq; [|apply good_lin with (p := 1) (q := 1); eauto]. intros; cbv beta; ring. Qed.
Lemma good_sub a b v w : good a v -> good b w -> good (join a b) (fun c => v c - w c).
Proof. intros A B. eapply good_eq; [|apply good_lin with (p := 1) (q := -1); eauto]. intros; cbv beta; ring. Qed.
Lemma good_addc a v c : good a v -> good a (fun q => v q + c).
Proof. intros A. eapply good_eq; [|apply good_affine with (a := 1) (c := c); eauto]. intros; cbv beta; ring. Qed.
Lemma good_subc a v c : good a v -> good a (fun q => v q - c).
Proof. intros A. eapply good_eq; [|apply good_affine with (a := 1) (c := -c); eauto]. intros; cbv beta; ring. Qed.
Lemma good_csub a v c : good a v -> good a (fun q => c - v q).
Proof. intros A. eapply good_eq; [|apply good_affine with (a := -1) (c := c); eauto]. intros; cbv beta; ring. Qed.
Lemma good_mulc a v c : good a v -> good a (fun q => v q * c).
Proof. intros A. eapply good_eq; [|apply good_affine with (a := c) (c := 0); eauto]. intros; cbv beta; ring. Qed.
Lemma good_neg a v : good a v -> good a (fun q => - v q).
Proof. intros A. eapply good_eq; [|apply good_affine with (a := -1) (c := 0); eauto]. intros; cbv beta; ring. Qed.
Lemma good_fix a v : (forall q, v q = v C00) -> good a v.
Proof. intros H. eapply good_eq; [|apply good_const with (c := v C00)]. intros q; cbv beta. symmetry. apply H. Qed.
End Val.

Lemma leaves_bin l r : leaves (Bin l r) = join (leaves l) (leaves r).
Proof. reflexivity. Qed.

(* ------------------------------------------------------------------ *)
Section Sweep.
Variables (cap ninds : nat).
Variables (i j : nat).

(* j is attached to i *)
Definition interact (N : list (nat * tree)) : Prop :=
  exists f L, In (i, f) N /\ leaves f = Some L /\ In j L.
Definition extends (s s' : hst) : Prop := exists M, hN s' = hN s ++ M.

Lemma interact_ext s s' : extends s s' -> ~ interact (hN s') -> ~ interact (hN s).
Proof.
  intros [M E] H (f & L & I & HL & J). apply H. exists f, L. split; auto. rewrite E. apply in_app_iff. auto.
Qed.
Lemma ext_refl s : extends s s.
Proof. exists []. now rewrite app_nil_r. Qed.
Lemma ext_trans a b c : extends a b -> extends b c -> extends a c.
Proof. intros [M E] [M' E']. exists (M ++ M'). now rewrite E', E, app_assoc. Qed.

Lemma cell_inv s s' : cell cap s = Some s' -> hA s' = hA s /\ hN s' = hN s.
Proof. unfold cell. destruct (_ <? _)%nat; [|discriminate]. intros [= <-]. auto. Qed.
Lemma fresh_inv res t s s' : fresh cap res t s = Some s' ->
  hA s' = aset (hA s) res t /\ hN s' = hN s.
Proof.
  unfold fresh. destruct (cell cap s) eqn:E; [|discriminate]. cbn. intros [= <-].
  destruct (cell_inv _ E) as [A N]. cbn. rewrite A, N. auto.
Qed.
Lemma attach_inv t f s s' : attach ninds t f s = Some s' ->
  exists L, leaves t = Some L /\ hA s' = hA s /\ hN s' = hN s ++ map (fun e => (e, f)) L.
Proof.
  unfold attach. destruct (leaves t) as [L|]; [|discriminate]. destruct (forallb _ L); [|discriminate].
  intros [= <-]. exists L. auto.
Qed.
Lemma bind_inv o f s' : bind o f = Some s' -> exists s, o = Some s /\ f s = Some s'.
Proof. destruct o as [s|]; cbn; [|discriminate]. eauto. Qed.

Lemma attach_free t f L s s' s2 : attach ninds t f s = Some s' -> extends s' s2 -> leaves f = Some L ->
  ~ interact (hN s2) -> forall l, leaves t = Some l -> ~ (In i l /\ In j L).
Proof.
  intros A E HL NI l Hl [I J]. destruct (attach_inv _ _ _ A) as (l' & Hl' & _ & HN).
  rewrite Hl in Hl'. injection Hl' as <-. apply NI. exists f, L. split; auto.
  destruct E as [M E]. rewrite E, HN. rewrite !in_app_iff. left. right. apply in_map_iff. eauto.
Qed.

Definition inv (P : nat -> Prop) (A : nat -> tree) (T : corner -> mem reals) : Prop :=
  forall l, P l -> good i j (leaves (A l)) (fun q => T q l).

Lemma inv_sub (P Q : nat -> Prop) A T : inv P A T -> (forall l, Q l -> P l) -> inv Q A T.
Proof. intros I H l Hl. apply I. auto. Qed.
Lemma inv_w (P : nat -> Prop) A T res t (v : corner -> R) :
  inv P A T -> good i j (leaves t) v ->
  inv (fun l => l = res \/ P l) (aset A res t) (fun q => @upd reals (T q) res (v q)).
Proof.
  intros I G l Hl. unfold aset, upd. destruct (l =? res)%nat eqn:E.
  - exact G.
  - apply I. apply Nat.eqb_neq in E. destruct Hl; [contradiction|auto].
Qed.
Lemma inv_keep (P : nat -> Prop) A T res (v : corner -> R) :
  inv P A T -> good i j (leaves (A res)) v ->
  inv (fun l => l = res \/ P l) A (fun q => @upd reals (T q) res (v q)).
Proof.
  intros I G l Hl. unfold upd. destruct (l =? res)%nat eqn:E.
  - apply Nat.eqb_eq in E. now subst.
  - apply I. apply Nat.eqb_neq in E. destruct Hl; [contradiction|auto].
Qed.

Variables (ps : nat -> R) (x : corner -> nat -> R).
Hypothesis HX : forall n, good i j (Some [n]) (fun q => x q n).

Ltac unb := repeat match goal with
  | H : bind _ _ = Some _ |- _ =>
      let s := fresh "s" in let E := fresh "E" in let E' := fresh "E" in
      apply bind_inv in H; destruct H as (s & E & E')
  end.
Ltac exts := repeat match goal with
  | H : cell _ _ = Some _ |- _ => destruct (cell_inv _ H) as [? ?]; clear H
  | H : fresh _ _ _ _ = Some _ |- _ => destruct (fresh_inv _ _ _ H) as [? ?]; clear H
  end.

Lemma hdot_ext n a1 a2 res : forall q s s', hdot cap ninds n a1 a2 res q s = Some s' -> extends s s'.
Proof.
  induction n as [|n IH]; intros q s s' H; cbn [hdot] in H.
  - injection H as <-. apply ext_refl.
  - unb. exts. destruct (attach_inv _ _ _ E4) as (L & _ & _ & N1). destruct (attach_inv _ _ _ E3) as (L2 & _ & _ & N2).
    eapply ext_trans; [|eapply IH; eassumption]. eexists. repeat match goal with H : hN _ = _ |- _ => rewrite H; clear H end. rewrite <- app_assoc. reflexivity.
Qed.
Lemma haxpy_ext n arg a1 a2 res : forall q s s', haxpy cap ninds n arg a1 a2 res q s = Some s' -> extends s s'.
Proof.
  induction n as [|n IH]; intros q s s' H; cbn [haxpy] in H.
  - injection H as <-. apply ext_refl.
  - unb. exts. destruct (attach_inv _ _ _ E4) as (L & _ & _ & N1). destruct (attach_inv _ _ _ E3) as (L2 & _ & _ & N2).
    eapply ext_trans; [|eapply IH; eassumption]. eexists. repeat match goal with H : hN _ = _ |- _ => rewrite H; clear H end. rewrite <- app_assoc. reflexivity.
Qed.

Lemma hcopy_N n arg res : forall q s, hN (hcopy n arg res q s) = hN s.
Proof. induction n as [|n IH]; intros q s; cbn [hcopy]; auto. now rewrite IH. Qed.

Lemma inv_hcopy n arg res : forall q P s T, inv P (hA s) T ->
  (forall l, In l (seq (arg + q) n) -> P l) ->
  inv (fun l => In l (seq (res + q) n) \/ P l) (hA (hcopy n arg res q s))
      (fun c => @vcopy reals n arg res q (T c)).
Proof.
  induction n as [|n IH]; intros q P s T I R; cbn [hcopy vcopy seq].
  - eapply inv_sub; eauto. cbn. tauto.
  - eapply inv_sub; [eapply IH with (P := fun l => l = (res + q)%nat \/ P l)
                     (T := fun c => @upd reals (T c) (res + q) (T c (arg + q)%nat))|].
    + cbn [point hA]. apply inv_w; auto. apply I. apply R. cbn. auto.
    + intros l Hl. right. apply R. cbn [seq]. right. rewrite <- Nat.add_succ_r in *. exact Hl.
    + cbn. intros l H. replace (S (res + q)) with (res + S q)%nat in H by lia. intuition.
Qed.

(* a product whose factors have been attached to each other *)
Lemma prod_free t1 t2 l1 l2 s s1 s2 :
  attach ninds t1 (Bin t1 t2) s = Some s1 -> attach ninds t2 (Bin t1 t2) s1 = Some s2 ->
  ~ interact (hN s2) -> leaves t1 = Some l1 -> leaves t2 = Some l2 ->
  ~ (In i l1 /\ In j l2) /\ ~ (In i l2 /\ In j l1) /\ ~ (In i l2 /\ In j l2).
Proof.
  intros A1 A2 NI L1 L2.
  assert (LB : leaves (Bin t1 t2) = Some (l1 ++ l2)) by (rewrite leaves_bin, L1, L2; reflexivity).
  assert (X12 : extends s1 s2).
  { destruct (attach_inv _ _ _ A2) as (L & _ & _ & N). now exists (map (fun e => (e, Bin t1 t2)) L). }
  pose proof (@attach_free _ _ _ _ _ _ A1 X12 LB NI _ L1) as F1.
  pose proof (@attach_free _ _ _ _ _ _ A2 (ext_refl s2) LB NI _ L2) as F2.
  rewrite in_app_iff in F1, F2. tauto.
Qed.

Lemma inv_hdot n a1 a2 res : forall q (P : nat -> Prop) s s' T, inv P (hA s) T -> P res ->
  (forall l, In l (seq (a1 + q) n ++ seq (a2 + q) n) -> P l) ->
  hdot cap ninds n a1 a2 res q s = Some s' -> ~ interact (hN s') ->
  inv P (hA s') (fun c => @vdot reals n a1 a2 res q (T c)).
Proof.
  induction n as [|n IH]; intros q P s s' T I Pr R H NI; cbn [hdot vdot] in *.
  - injection H as <-. exact I.
  - unb. exts.
    destruct (attach_inv _ _ _ E4) as (l1 & L1 & B1 & N1).
    destruct (attach_inv _ _ _ E3) as (l2 & L2 & B2 & N2).
    assert (NI1 : ~ interact (hN s1)).
    { rewrite <- H2. eapply interact_ext; [eapply hdot_ext; eassumption|exact NI]. }
    destruct (@prod_free _ _ _ _ _ _ _ E4 E3 NI1 L1 L2) as (F1 & F2 & _).
    eapply IH with (T := fun c => @upd reals (T c) res (T c res + T c (a1 + q)%nat * T c (a2 + q)%nat)) (s := s0).
    + rewrite H1. eapply inv_sub with (P := fun l => l = res \/ P l); [|intros l Hl; right; exact Hl].
      rewrite B2, B1, H. apply inv_w; auto.
      assert (G1 : good i j (Some l1) (fun c => T c (a1 + q)%nat)).
      { rewrite <- L1. apply I, R. apply in_app_iff. cbn. auto. }
      assert (G2 : good i j (Some l2) (fun c => T c (a2 + q)%nat)).
      { rewrite <- L2. apply I, R. apply in_app_iff. cbn. auto. }
      rewrite leaves_bin, leaves_bin, L1, L2.
      eapply good_eq; [|apply good_lin with (p := 1) (q := 1); [apply I; exact Pr|]].
      2: { cbn [join]. eapply good_bin with (f := Rmult); [exact G1|exact G2|]. eapply flat_mul; eauto. }
      intros c. cbn. ring.
    + exact Pr.
    + intros l Hl. apply R. cbn [seq]. rewrite in_app_iff in *. cbn [In].
      replace (S (a1 + q)) with (a1 + S q)%nat by lia. replace (S (a2 + q)) with (a2 + S q)%nat by lia.
      intuition.
    + eassumption.
    + exact NI.
Qed.

Lemma inv_haxpy n arg a1 a2 res : forall q P s s' T, inv P (hA s) T ->
  P arg -> (forall l, In l (seq (a1 + q) n ++ seq (a2 + q) n) -> P l) ->
  haxpy cap ninds n arg a1 a2 res q s = Some s' -> ~ interact (hN s') ->
  inv (fun l => In l (seq (res + q) n) \/ P l) (hA s') (fun c => @vaxpy reals n arg a1 a2 res q (T c)).
Proof.
  induction n as [|n IH]; intros q P s s' T I Pa R H NI; cbn [haxpy vaxpy seq] in *.
  - injection H as <-. eapply inv_sub; [exact I|cbn; tauto].
  - unb. exts.
    destruct (attach_inv _ _ _ E4) as (l1 & L1 & B1 & N1).
    destruct (attach_inv _ _ _ E3) as (l2 & L2 & B2 & N2).
    assert (NI1 : ~ interact (hN s1)).
    { rewrite <- H2. eapply interact_ext; [eapply haxpy_ext; eassumption|exact NI]. }
    destruct (@prod_free _ _ _ _ _ _ _ E4 E3 NI1 L1 L2) as (F1 & F2 & _).
    eapply inv_sub; [eapply IH with (P := fun l => l = (res + q)%nat \/ P l)
      (T := fun c => @upd reals (T c) (res + q)%nat (T c arg * T c (a1 + q)%nat + T c (a2 + q)%nat)) (s := s0)|].
    + rewrite H1, B2, B1, H. apply inv_w; auto.
      assert (G1 : good i j (Some l1) (fun c => T c arg)).
      { rewrite <- L1. apply I, Pa. }
      assert (G2 : good i j (Some l2) (fun c => T c (a1 + q)%nat)).
      { rewrite <- L2. apply I, R. apply in_app_iff. cbn. auto. }
      rewrite leaves_bin, leaves_bin, L1, L2.
      eapply good_eq; [|apply good_lin with (p := 1) (q := 1); [|apply I, R; apply in_app_iff; cbn; auto]].
      2: { cbn [join]. eapply good_bin with (f := Rmult); [exact G1|exact G2|]. eapply flat_mul; eauto. }
      intros c. cbn. ring.
    + right. exact Pa.
    + intros l Hl. right. apply R. cbn [seq]. rewrite in_app_iff in *. cbn [In].
      replace (S (a1 + q)) with (a1 + S q)%nat by lia. replace (S (a2 + q)) with (a2 + S q)%nat by lia.
      intuition.
    + eassumption.
    + exact NI.
    + cbn. intros l Hl. replace (S (res + q)) with (res + S q)%nat in Hl by lia. intuition.
Qed.
Lemma inv_stock n : forall res d P A T, inv P A T ->
  inv P A (fun c => @stock reals n res d (T c)).
Proof.
  induction n as [|n IH]; intros res d P A T I; cbn [stock]; auto.
  apply IH with (T := fun c => @upd reals (T c) res (hd (zero reals) d)).
  eapply inv_sub; [apply inv_keep with (v := fun _ => hd (zero reals) d); eauto|].
  - apply good_const.
  - cbn. auto.
Qed.

Lemma ext_N s s' : hN s' = hN s -> extends s s'.
Proof. intros H. exists []. now rewrite app_nil_r. Qed.
Lemma attach_ext t f s s' : attach ninds t f s = Some s' -> extends s s'.
Proof. intros H. destruct (attach_inv _ _ _ H) as (L & _ & _ & N). eexists. exact N. Qed.
Lemma fresh_ext res t s s' : fresh cap res t s = Some s' -> extends s s'.
Proof. intros H. apply ext_N. now destruct (fresh_inv _ _ _ H). Qed.
Lemma cell_ext s s' : cell cap s = Some s' -> extends s s'.
Proof. intros H. apply ext_N. now destruct (cell_inv _ H). Qed.

Ltac ext_tac := unb;
  repeat match goal with
  | H : Some _ = Some _ |- _ => injection H as <-
  | H : fresh _ _ _ _ = Some _ |- _ => apply fresh_ext in H
  | H : cell _ _ = Some _ |- _ => apply cell_ext in H
  | H : attach _ _ _ _ = Some _ |- _ => apply attach_ext in H
  | H : hdot _ _ _ _ _ _ _ _ = Some _ |- _ => apply hdot_ext in H
  | H : haxpy _ _ _ _ _ _ _ _ _ = Some _ |- _ => apply haxpy_ext in H
  end;
  eauto using ext_trans, ext_refl.
Lemma hsafe_ext n (b : bop reals) s s' : hsafe cap ninds n b s = Some s' -> extends s s'.
Proof.
  clear HX. intros H. destruct b; cbn [hsafe] in H; unfold unary in H; ext_tac;
    apply ext_N; cbn; auto using hcopy_N.
Qed.
Lemma htight_ext r n (b : bop reals) T s s' : htight cap ninds r n b T s = Some s' -> extends s s'.
Proof.
  clear HX. intros H. destruct b; cbn [htight] in H; try (apply hsafe_ext in H; exact H);
    repeat match type of H with context [if ?c then _ else _] => destruct c end;
    ext_tac; apply ext_N; reflexivity.
Qed.

Lemma unary_step P s s' T res arg (f : R -> R) :
  inv P (hA s) T -> P arg -> unary cap ninds res arg s = Some s' -> ~ interact (hN s') ->
  inv (fun l => l = res \/ P l) (hA s') (fun q => @upd reals (T q) res (f (T q arg))).
Proof.
  clear HX. intros I Pa H NI. unfold unary in H. unb.
  destruct (attach_inv _ _ _ E) as (L & HL & B & N).
  destruct (fresh_inv _ _ _ E0) as [HA HN]. rewrite HA, B.
  apply inv_w; auto.
  assert (NI0 : ~ (In i L /\ In j L)).
  { rewrite HN in NI. refine (@attach_free _ _ _ _ _ _ E (ext_refl _) HL NI _ HL). }
  rewrite HL. cbn [leaves] in HL. apply good_un; auto. rewrite <- HL. now apply I.
Qed.

(* factors attached to each other: mult_a_a, eq_mult_a, eq_plus_prod *)
Lemma cross_free t1 t2 l1 l2 s s1 s2 :
  attach ninds t1 t2 s = Some s1 -> attach ninds t2 t1 s1 = Some s2 ->
  ~ interact (hN s2) -> leaves t1 = Some l1 -> leaves t2 = Some l2 ->
  ~ (In i l1 /\ In j l2) /\ ~ (In i l2 /\ In j l1).
Proof.
  clear HX. intros A1 A2 NI L1 L2. split.
  - refine (@attach_free _ _ _ _ _ _ A1 _ L2 NI _ L1). eapply attach_ext; eauto.
  - refine (@attach_free _ _ _ _ _ _ A2 (ext_refl _) L1 NI _ L2).
Qed.
Lemma div_free t1 t2 l1 l2 s s1 s2 :
  attach ninds t1 t2 s = Some s1 -> attach ninds t2 (Bin t1 t2) s1 = Some s2 ->
  ~ interact (hN s2) -> leaves t1 = Some l1 -> leaves t2 = Some l2 ->
  ~ (In i l1 /\ In j l2) /\ ~ (In i l2 /\ In j l1) /\ ~ (In i l2 /\ In j l2).
Proof.
  clear HX. intros A1 A2 NI L1 L2.
  assert (LB : leaves (Bin t1 t2) = Some (l1 ++ l2)) by (rewrite leaves_bin, L1, L2; reflexivity).
  assert (F1 : ~ (In i l1 /\ In j l2)).
  { refine (@attach_free _ _ _ _ _ _ A1 _ L2 NI _ L1). eapply attach_ext; eauto. }
  pose proof (@attach_free _ _ _ _ _ _ A2 (ext_refl _) LB NI _ L2) as F2.
  rewrite in_app_iff in F2. tauto.
Qed.

Lemma branch_inj (a b : bool) : [Branch reals a] = [Branch reals b] -> a = b.
Proof. congruence. Qed.
Lemma step_inj (a b : R) : [Step reals a] = [Step reals b] -> a = b.
Proof. congruence. Qed.

Lemma good_if (p : corner -> bool) L1 L2 v w : (forall q, p q = p C00) ->
  good i j L1 v -> good i j L2 w ->
  good i j (if p C00 then L1 else L2) (fun q => if p q then v q else w q).
Proof.
  clear HX. intros E A B. destruct (p C00) eqn:Z.
  - eapply good_eq; [|exact A]. intros q. cbv beta. now rewrite E, ?Z.
  - eapply good_eq; [|exact B]. intros q. cbv beta. now rewrite E, ?Z.
Qed.
Lemma good_weak L v : good i j L v -> good i j None v.
Proof. clear. intros [F _]. now apply good_any. Qed.

Lemma good_abs L v : (forall q, Rltb (v q) 0 = Rltb (v C00) 0) -> good i j L v ->
  good i j L (fun q => Rabs (v q)).
Proof.
  clear HX. intros E G. destruct (Rltb (v C00) 0) eqn:Z.
  - eapply good_eq; [|apply good_neg; exact G]. intros q. cbv beta.
    specialize (E q). apply Rltb_lt in E. rewrite Rabs_left; lra.
  - eapply good_eq; [|exact G]. intros q. cbv beta.
    specialize (E q). rewrite Rabs_pos_eq; auto. unfold Rltb in E. destruct (Rlt_dec (v q) 0); [discriminate|lra].
Qed.

Ltac goods := first
  [ apply good_const | apply HX
  | match goal with I : inv _ _ _ |- good _ _ (leaves (hA _ ?l)) (fun q => _ q ?l) => apply I end
  | apply good_addc | apply good_subc | apply good_csub | apply good_mulc | apply good_neg
  | rewrite leaves_bin; apply good_add | rewrite leaves_bin; apply good_sub ].

Definition sinok (b : bop reals) : Prop :=
  match b with SinOp _ a1 a2 _ | CosOp _ a1 a2 _ => a2 <> a1 | _ => True end.

Lemma inv_drop (P : nat -> Prop) A T a (v : corner -> R) : inv P A T ->
  inv (fun l => P l /\ l <> a) A (fun q => @upd reals (T q) a (v q)).
Proof.
  clear HX. intros I l [Hl N]. unfold upd. apply Nat.eqb_neq in N. rewrite N. now apply I.
Qed.
Lemma inv_ext_T (P : nat -> Prop) A T T' : (forall q l, T q l = T' q l) -> inv P A T -> inv P A T'.
Proof. clear. intros E I l Hl. eapply good_eq; [|apply I; exact Hl]. intros q. cbv beta. apply E. Qed.

Lemma inv_ext_A (P : nat -> Prop) A A' T : (forall l, A l = A' l) -> inv P A T -> inv P A' T.
Proof. clear HX. intros E I l Hl. rewrite <- E. now apply I. Qed.
Lemma aset2 A r t u l : aset A r u l = aset (aset A r t) r u l.
Proof. unfold aset. now destruct (l =? r)%nat. Qed.

Lemma sincos_step P s s' T a1 a2 res (f g : R -> R) :
  inv P (hA s) T -> P a1 -> a2 <> a1 -> unary cap ninds res a1 s = Some s' -> ~ interact (hN s') ->
  inv (fun l => l = res \/ (P l /\ l <> a2)) (hA s')
     (fun q => @upd reals (@upd reals (T q) a2 (g (T q a1))) res (f (@upd reals (T q) a2 (g (T q a1)) a1))).
Proof.
  clear HX. intros I Pa N H NI.
  eapply inv_ext_T with (T := fun q => @upd reals (@upd reals (T q) a2 (g (T q a1))) res (f (T q a1))).
  { intros q l. rewrite (@upd_off reals (T q) a2 _ a1) by auto. reflexivity. }
  unfold unary in H. unb.
  destruct (attach_inv _ _ _ E) as (L & HL & B & N').
  destruct (fresh_inv _ _ _ E0) as [HA HN]. rewrite HA, B.
  apply inv_w.
  - apply inv_drop. exact I.
  - assert (NI0 : ~ (In i L /\ In j L)).
    { rewrite HN in NI. refine (@attach_free _ _ _ _ _ _ E (ext_refl _) HL NI _ HL). }
    rewrite HL. cbn [leaves] in HL. apply good_un; auto. rewrite <- HL. now apply I.
Qed.

Lemma attach_two_A t1 f1 t2 f2 s s1 s2 : attach ninds t1 f1 s = Some s1 -> attach ninds t2 f2 s1 = Some s2 ->
  hA s2 = hA s.
Proof.
  clear HX. intros A B. destruct (attach_inv _ _ _ A) as (? & _ & A1 & _).
  destruct (attach_inv _ _ _ B) as (? & _ & B1 & _). congruence.
Qed.
(* the value of a product whose factors have been attached to each other *)
Lemma good_cross t1 t2 (v w : corner -> R) s s1 s2 :
  attach ninds t1 t2 s = Some s1 -> attach ninds t2 t1 s1 = Some s2 -> ~ interact (hN s2) ->
  good i j (leaves t1) v -> good i j (leaves t2) w ->
  good i j (leaves (Bin t1 t2)) (fun q => v q * w q).
Proof.
  clear HX. intros A B NI G1 G2.
  destruct (attach_inv _ _ _ A) as (l1 & L1 & _). destruct (attach_inv _ _ _ B) as (l2 & L2 & _).
  destruct (@cross_free _ _ _ _ _ _ _ A B NI L1 L2) as [F1 F2].
  rewrite leaves_bin, L1, L2. rewrite L1 in G1. rewrite L2 in G2.
  eapply good_bin with (f := Rmult); eauto. eapply flat_mul; eauto.
Qed.
Lemma good_prod t1 t2 (v w : corner -> R) s s1 s2 :
  attach ninds t1 (Bin t1 t2) s = Some s1 -> attach ninds t2 (Bin t1 t2) s1 = Some s2 -> ~ interact (hN s2) ->
  good i j (leaves t1) v -> good i j (leaves t2) w ->
  good i j (leaves (Bin t1 t2)) (fun q => v q * w q).
Proof.
  clear HX. intros A B NI G1 G2.
  destruct (attach_inv _ _ _ A) as (l1 & L1 & _). destruct (attach_inv _ _ _ B) as (l2 & L2 & _).
  destruct (@prod_free _ _ _ _ _ _ _ A B NI L1 L2) as (F1 & F2 & _).
  rewrite leaves_bin, L1, L2. rewrite L1 in G1. rewrite L2 in G2.
  eapply good_bin with (f := Rmult); eauto. eapply flat_mul; eauto.
Qed.
Lemma good_quot t1 t2 (v w : corner -> R) s s1 s2 :
  attach ninds t1 t2 s = Some s1 -> attach ninds t2 (Bin t1 t2) s1 = Some s2 -> ~ interact (hN s2) ->
  good i j (leaves t1) v -> good i j (leaves t2) w ->
  good i j (leaves (Bin t1 t2)) (fun q => v q / w q).
Proof.
  clear HX. intros A B NI G1 G2.
  destruct (attach_inv _ _ _ A) as (l1 & L1 & _). destruct (attach_inv _ _ _ B) as (l2 & L2 & _).
  destruct (@div_free _ _ _ _ _ _ _ A B NI L1 L2) as (F1 & F2 & F3).
  rewrite leaves_bin, L1, L2. rewrite L1 in G1. rewrite L2 in G2.
  eapply good_bin with (f := Rdiv); eauto. eapply flat_div; eauto.
Qed.

Ltac fr := repeat match goal with
  | H : fresh _ _ _ _ = Some _ |- _ =>
     let A := fresh "HA" in let N := fresh "HN" in destruct (fresh_inv _ _ _ H) as [A N]; rewrite A; clear A H
  | H : Some _ = Some _ |- _ => injection H as <-; cbn [point hA]
  end.
Ltac fin := cbn [In]; intros; intuition.

Lemma hsafe_step n b P s s' T :
  inv P (hA s) T -> (forall l, In l (breads b) -> P l) -> forgets b = false ->
  (forall q, bchoices true b (T q) = bchoices true b (T C00)) ->
  (forall q, bsigns b (T q) = bsigns b (T C00)) -> sinok b ->
  hsafe cap ninds n b s = Some s' -> ~ interact (hN s') ->
  inv (after P b) (hA s') (fun q => @zval reals ps (x q) n b (T q)).
Proof.
  intros I R FG CH SG SN H NI.
  destruct b; cbn [after hsafe zval bwrites] in *; cbn [breads] in R; cbn [bchoices] in CH;
    cbn [bsigns] in SG; cbn [sinok] in SN; try discriminate FG.
  all: try (fr; eapply inv_sub; [exact I|fin]).
  all: try (fr; eapply inv_sub; [first [apply inv_w; [exact I|] | apply inv_keep; [exact I|]]; repeat goods;
       try (apply R; cbn; auto) |fin]; fail).
  all: try (unb; match goal with NI : ~ interact (hN ?sf), E : fresh _ _ _ ?a = Some ?sf |- _ =>
      let HA := fresh "HA" in let HN := fresh "HN" in
      destruct (fresh_inv _ _ _ E) as [HA HN]; rewrite HN in NI; rewrite HA end).
  all: try match goal with A : attach _ _ _ ?s0 = Some ?s1, B : attach _ _ _ ?s1 = Some ?s2 |- _ =>
      rewrite (attach_two_A _ _ _ _ _ A B);
      try match goal with C : cell _ _ = Some s0 |- _ => rewrite (proj1 (cell_inv _ C)) end;
      (eapply inv_sub; [apply inv_w; [exact I|]|fin]) end.
  - eapply good_cross; eauto; apply I, R; cbn; auto.
  - eapply good_cross; eauto; apply I, R; cbn; auto.
  - rewrite leaves_bin. apply good_add; [apply I, R; cbn; auto|].
    eapply good_cross; eauto; apply I, R; cbn; auto.
  - rewrite leaves_bin. apply good_sub; [apply I, R; cbn; auto|].
    eapply good_prod; eauto; apply I, R; cbn; auto.
  - eapply good_quot; eauto; apply I, R; cbn; auto.
  - eapply inv_sub; [eapply unary_step with (f := fun v => dvd reals c v); eauto; apply R; cbn; auto|fin].
  - eapply inv_sub; [eapply unary_step with (f := fn reals Fexp); eauto; apply R; cbn; auto|fin].
  - eapply sincos_step with (f := fn reals Fsin) (g := fn reals Fcos); eauto. apply R; cbn; auto.
  - eapply sincos_step with (f := fn reals Fcos) (g := fn reals Fsin); eauto. apply R; cbn; auto.
  - eapply inv_sub; [eapply unary_step with (f := fn reals f); eauto; apply R; cbn; auto|fin].
  - eapply inv_sub; [eapply unary_step with (f := fn reals Flog); eauto; apply R; cbn; auto|fin].
  - eapply inv_sub; [eapply unary_step with (f := fun v => vpow reals v c); eauto; apply R; cbn; auto|fin].
  - eapply inv_sub; [eapply unary_step with (f := fn reals Fsqrt); eauto; apply R; cbn; auto|fin].
  - eapply inv_sub; [eapply unary_step with (f := fn reals Fcbrt); eauto; apply R; cbn; auto|fin].
  - match goal with E : fresh _ _ _ s = Some ?s0 |- _ => rewrite (proj1 (fresh_inv _ _ _ E)) end.
    eapply inv_ext_A; [apply aset2|]. eapply inv_sub; [apply inv_w; [exact I|]|fin].
    cbn [leaves]. eapply good_weak.
    apply good_if with (p := fun q => ltb reals (T q a2) (T q a1)).
    + intros q. apply branch_inj. apply CH.
    + apply I, R; cbn; auto.
    + apply I, R; cbn; auto.
  - fr. eapply inv_sub; [apply inv_w; [exact I|]|fin]. apply good_abs with (v := fun q => T q arg).
    + intros q. apply branch_inj. apply SG.
    + apply I, R; cbn; auto.
  - fr. eapply inv_sub; [apply inv_w; [exact I|]|fin]. apply good_fix. intros q. apply step_inj. apply CH.
  - fr. eapply inv_sub; [apply inv_w; [exact I|]|fin]. apply good_fix. intros q. apply step_inj. apply CH.
  - fr. eapply inv_sub; [apply inv_w; [exact I|]|fin]. cbn [leaves]. eapply good_weak.
    apply good_if with (p := fun q => ltb reals (zero reals) (T q arg)).
    + intros q. apply branch_inj. apply CH.
    + apply I, R; cbn; auto.
    + apply I, R; cbn; auto.
  - fr. eapply inv_sub; [apply inv_w; [exact I|]|fin]. cbn [leaves]. eapply good_weak.
    apply good_if with (p := fun q => leb reals (zero reals) (T q arg)).
    + intros q. apply branch_inj. apply CH.
    + apply I, R; cbn; auto.
    + apply I, R; cbn; auto.
  - fr. eapply inv_sub; [eapply inv_hcopy; eauto|].
    + intros l Hl. apply R. now rewrite Nat.add_0_r in Hl.
    + cbn. intros l Hl. now rewrite Nat.add_0_r.
  - unb. eapply inv_hdot with (T := fun q => @upd reals (T q) res (zero reals)) (q := 0%nat); eauto.
    + rewrite (proj1 (fresh_inv _ _ _ E)). eapply inv_sub; [apply inv_w with (v := fun _ => zero reals); [exact I|apply good_const]|fin].
    + cbn. auto.
    + intros l Hl. right. apply R. now rewrite !Nat.add_0_r in Hl.
  - eapply inv_sub; [eapply inv_haxpy with (q := 0%nat); eauto|].
    + apply R. cbn. auto.
    + intros l Hl. apply R. rewrite !Nat.add_0_r in Hl. cbn. auto.
    + cbn. intros l Hl. now rewrite Nat.add_0_r.
  - fr. now apply inv_stock.
Qed.

Lemma htight_step r n b P s s' T :
  inv P (hA s) T -> (forall l, In l (breads b) -> P l) -> forgets b = false ->
  (forall q, bchoices true b (T q) = bchoices true b (T C00)) ->
  (forall q, bsigns b (T q) = bsigns b (T C00)) -> sinok b ->
  htight cap ninds r n b (T C00) s = Some s' -> ~ interact (hN s') ->
  inv (after P b) (hA s') (fun q => @zval reals ps (x q) n b (T q)).
Proof.
  intros I R FG CH SG SN H NI.
  assert (D : (hsafe cap ninds n b s = Some s') \/
              match b with MinOp _ _ _ _ _ | CondAssign _ _ _ _ _ _ | CondEqAssign _ _ _ _ _ _ => True
                         | _ => False end).
  { destruct b; cbn [htight] in H; auto; discriminate FG. }
  destruct D as [D|D]; [eapply hsafe_step; eauto|].
  destruct b; try contradiction; cbn [after htight zval bwrites] in *; cbn [breads] in R; cbn [bchoices] in CH.
  - pose proof (fun q => branch_inj (CH q)) as CB. cbv beta in CB.
    assert (IG1 : good i j (leaves (hA s a1)) (fun q => T q a1)) by (apply I, R; cbn; auto).
    assert (IG2 : good i j (leaves (hA s a2)) (fun q => T q a2)) by (apply I, R; cbn; auto).
    pose proof (@good_if (fun q => ltb reals (T q a2) (T q a1)) _ _ _ _ CB IG2 IG1) as G.
    destruct (ltb reals (T C00 a1) (T C00 a2)) eqn:E1.
    + assert (E2 : ltb reals (T C00 a2) (T C00 a1) = false).
      { cbn in *. apply Rltb_lt in E1. unfold Rltb. destruct (Rlt_dec (T C00 a2) (T C00 a1)); auto. lra. }
      cbv beta in G. rewrite E2 in G. fr. eapply inv_sub; [apply inv_w; [exact I|]|fin]. exact G.
    + destruct (ltb reals (T C00 a2) (T C00 a1)) eqn:E2; cbv beta iota in G.
      * fr. eapply inv_sub; [apply inv_w; [exact I|]|fin]. exact G.
      * fr. eapply inv_sub; [apply inv_w; [exact I|]|fin]. rewrite leaves_bin.
        destruct G as [F G]. split; [exact F|]. intros l Hl.
        destruct (leaves (hA s a1)) as [l1|]; [|discriminate]. destruct (leaves (hA s a2)) as [l2|]; [|discriminate].
        cbn in Hl. injection Hl as <-. destruct (G l1 eq_refl) as [G1 G2].
        split; intros N; rewrite in_app_iff in N; auto.
  - pose proof (fun q => branch_inj (CH q)) as CB. cbv beta in CB.
    assert (IG1 : good i j (leaves (hA s a1)) (fun q => T q a1)) by (apply I, R; cbn; auto).
    assert (IG2 : good i j (leaves (hA s a2)) (fun q => T q a2)) by (apply I, R; cbn; auto).
    pose proof (@good_if (fun q => ltb reals (zero reals) (T q arg)) _ _ _ _ CB IG1 IG2) as G.
    fr. eapply inv_sub; [apply inv_w; [exact I|]|fin].
    cbv beta in G. change (ltb reals (zero reals) (T C00 arg)) with (Rltb 0 (T C00 arg)) in *. destruct (Rltb 0 (T C00 arg)); exact G.
  - pose proof (fun q => branch_inj (CH q)) as CB. cbv beta in CB.
    assert (IG1 : good i j (leaves (hA s a1)) (fun q => T q a1)) by (apply I, R; cbn; auto).
    assert (IG2 : good i j (leaves (hA s a2)) (fun q => T q a2)) by (apply I, R; cbn; auto).
    pose proof (@good_if (fun q => leb reals (zero reals) (T q arg)) _ _ _ _ CB IG1 IG2) as G.
    fr. eapply inv_sub; [apply inv_w; [exact I|]|fin].
    cbv beta in G. change (leb reals (zero reals) (T C00 arg)) with (Rleb 0 (T C00 arg)) in *. destruct (Rleb 0 (T C00 arg)); exact G.
Qed.

(* ---------------------------------------------------------------- *)
(* The whole sweep.                                                   *)
Lemma nsrun_ext (t : list (op reals)) : forall n s rows, nsrun cap ninds t n s = HRows rows ->
  exists sf, extends s sf /\ finish ninds sf = HRows rows.
Proof.
  clear HX. induction t as [|o t IH]; intros n s rows H; cbn [nsrun] in H.
  - exists s. split; [apply ext_refl|exact H].
  - destruct o as [b| | | | | | | | | | | | | | | | | | | |]; try discriminate H.
    assert (E : exists s', hsafe cap ninds n b s = Some s' /\
       nsrun cap ninds t (if is_ind b then S n else n) s' = HRows rows).
    { destruct b; try discriminate H;
        match type of H with match ?o with _ => _ end = _ => destruct o as [s'|] eqn:E; [|discriminate] end; eauto. }
    destruct E as (s' & E & H'). destruct (IH _ _ _ H') as (sf & X & F). exists sf. split; auto.
    eapply ext_trans; [eapply hsafe_ext; eauto|exact X].
Qed.
Lemma ntrun_step (o : op reals) t n (T : mem reals) (y : nat -> R) s rows : @ntrun reals cap ninds ps y (o :: t) n T s = HRows rows ->
  exists s', htight cap ninds (negb (is_plain o)) n (resolve T o) T s = Some s' /\
   @ntrun reals cap ninds ps y t (if is_ind (resolve T o) then S n else n)
      (@zval_tight reals ps y n (resolve T o) T) s' = HRows rows.
Proof.
  clear HX. cbn [ntrun]. destruct (oob T o); [discriminate|]. set (b := resolve T o). intros H.
  assert (H' : match zabort b T with
        | Some c => HAbort c
        | None => match htight cap ninds (negb (is_plain o)) n b T s with
            | Some s' => @ntrun reals cap ninds ps y t (if is_ind b then S n else n) (@zval_tight reals ps y n b T) s'
            | None => HUndef end end = HRows rows) by (destruct b; auto; discriminate H).
  destruct (zabort b T); [discriminate|]. destruct (htight _ _ _ _ _ _ _) as [s'|]; [|discriminate]. eauto.
Qed.
Lemma ntrun_ext (t : list (op reals)) (y : nat -> R) : forall n T s rows, @ntrun reals cap ninds ps y t n T s = HRows rows ->
  exists sf, extends s sf /\ finish ninds sf = HRows rows.
Proof.
  clear HX. induction t as [|o t IH]; intros n T s rows H.
  - exists s. split; [apply ext_refl|exact H].
  - apply ntrun_step in H. destruct H as (s' & E & H').
    destruct (IH _ _ _ _ H') as (sf & X & F). exists sf. split; auto.
    eapply ext_trans; [eapply htight_ext; eauto|exact X].
Qed.

Definition flat_outputs (s : corner -> fstate reals) : Prop :=
  (forall q, length (fy (s q)) = length (fy (s C00))) /\
  forall m y, (forall q, nth_error (fy (s q)) m = Some (y q)) -> flat y.

Lemma hpatternable_inv (b : bop reals) bs h : hpatternable (b :: bs) h = true ->
  forgets b = false /\ (forall l, In l (breads b) -> ~ In l h) /\ sinok b /\
  hpatternable bs (helpers b h) = true.
Proof.
  clear HX. cbn [hpatternable]. rewrite !andb_true_iff. intros (((L & R) & S) & N).
  apply negb_true_iff in L. rewrite forallb_forall in R. split; auto.
  split. { intros l Hl. apply R in Hl. apply negb_true_iff in Hl.
           rewrite <- mem_nat_iff, Hl. discriminate. }
  split; auto.
  destruct b; cbn; auto; apply negb_true_iff, Nat.eqb_neq in S; auto.
Qed.

Lemma outputs_step (s s1 : corner -> fstate reals) h A (b : bop reals) :
  flat_outputs s -> inv (fun l => ~ In l h) A (fun q => fT (s q)) ->
  (forall l, In l (breads b) -> ~ In l h) ->
  (forall q, fy (s1 q) = fy (s q) ++ out_of b (fT (s q))) -> flat_outputs s1.
Proof.
  clear HX. intros [LN F] I R Y. split.
  - intros q. rewrite !Y, !app_length, LN. f_equal. destruct b; reflexivity.
  - intros m y H.
    destruct (Nat.lt_ge_cases m (length (fy (s C00)))) as [L|L].
    + apply (F m). intros q. specialize (H q). rewrite Y, nth_error_app1 in H; auto. rewrite LN. auto.
    + assert (O : exists res, b = AssignDep reals res).
      { specialize (H C00). rewrite Y, nth_error_app2 in H by lia.
        destruct b; cbn [out_of] in H; try (rewrite nth_error_nil in H; discriminate H);
          try (destruct (m - length (fy (s C00)))%nat; discriminate H). eauto. }
      destruct O as [res ->].
      assert (V : forall q, y q = fT (s q) res).
      { intros q. specialize (H q). rewrite Y, nth_error_app2 in H by (rewrite LN; lia).
        cbn [out_of] in H. destruct (m - length (fy (s q)))%nat as [|k]; cbn in H; [congruence|].
        destruct k; discriminate H. }
      destruct (I res) as [FL _]; [apply R; cbn; auto|]. unfold flat in *. now rewrite !V.
Qed.

Lemma opieces_len o (T T' : mem reals) : length (opieces o T) = length (opieces o T').
Proof.
  clear HX. unfold opieces, ochoices. rewrite !app_length, !map_length. f_equal; [f_equal|];
    destruct o as [b| | | | | | | | | | | | | | | | | | | |]; try destruct b; reflexivity.
Qed.
Lemma opieces_same o (T T' : mem reals) : opieces o T = opieces o T' ->
  resolve T o = resolve T' o /\
  bchoices true (resolve T o) T = bchoices true (resolve T o) T' /\
  bsigns (resolve T o) T = bsigns (resolve T o) T'.
Proof.
  clear HX. unfold opieces. intros H.
  assert (LN : length (ochoices true o T) = length (ochoices true o T')).
  { unfold ochoices. rewrite !app_length, !map_length. f_equal;
      destruct o as [b| | | | | | | | | | | | | | | | | | | |]; try destruct b; reflexivity. }
  apply app_inv_len in H; auto. destruct H as [C S].
  destruct (@resolve_same reals _ _ _ _ C) as (E & _ & B). rewrite <- E in *. auto.
Qed.

Lemma tight_val (b : bop reals) n (y : nat -> R) T : forgets b = false ->
  @zval_tight reals ps y n b T = @zval reals ps y n b T.
Proof. clear HX. destruct b; auto; discriminate. Qed.

Lemma corners_choice A (P : corner -> A -> Prop) : (forall q, exists a, P q a) -> exists f, forall q, P q (f q).
Proof.
  clear. intros H.
  destruct (H C00) as [a Ha]. destruct (H C10) as [b Hb]. destruct (H C01) as [c Hc]. destruct (H C11) as [d Hd].
  exists (fun q => match q with C00 => a | C10 => b | C01 => c | C11 => d end). intros []; auto.
Qed.

Lemma step_all o t (s e : corner -> fstate reals) h :
  (forall q, @zrun reals ps (x q) (o :: t) (s q) = Done (e q)) -> (forall q, (0 <= frc (e q))%Z) ->
  (forall q, @pieces reals ps (x q) (o :: t) (s q) = @pieces reals ps (x C00) (o :: t) (s C00)) ->
  hpatternable (@resolved reals ps (x C00) (o :: t) (s C00)) h = true ->
  (forall q, fi (s q) = fi (s C00)) ->
  let b := resolve (fT (s C00)) o in
  exists s1 : corner -> fstate reals,
    (forall q, @zrun reals ps (x q) t (s1 q) = Done (e q)) /\
    (forall q, @pieces reals ps (x q) t (s1 q) = @pieces reals ps (x C00) t (s1 C00)) /\
    hpatternable (@resolved reals ps (x C00) t (s1 C00)) (helpers b h) = true /\
    (forall q, fT (s1 q) = @zval reals ps (x q) (fi (s C00)) b (fT (s q))) /\
    (forall q, fi (s1 q) = if is_ind b then S (fi (s C00)) else fi (s C00)) /\
    (forall q, fy (s1 q) = fy (s q) ++ out_of b (fT (s q))) /\
    (forall q, bchoices true b (fT (s q)) = bchoices true b (fT (s C00))) /\
    (forall q, bsigns b (fT (s q)) = bsigns b (fT (s C00))) /\
    forgets b = false /\ (forall l, In l (breads b) -> ~ In l h) /\ sinok b.
Proof.
  clear HX. intros Z F PC PA FI b.
  destruct (@corners_choice _ (fun q s1 => @zstep reals ps (x q) o (s q) = inl s1 /\ @zrun reals ps (x q) t s1 = Done (e q)))
    as [s1 H1].
  { intros q. apply (@zrun_step reals); auto. }
  exists s1.
  assert (PO : forall q, opieces o (fT (s q)) = opieces o (fT (s C00)) /\
                         @pieces reals ps (x q) t (s1 q) = @pieces reals ps (x C00) t (s1 C00)).
  { intros q. specialize (PC q). cbn [pieces] in PC.
    rewrite (proj1 (H1 q)), (proj1 (H1 C00)) in PC. apply app_inv_len in PC; auto. apply opieces_len. }
  assert (RS : forall q, resolve (fT (s q)) o = b).
  { intros q. destruct (opieces_same _ _ _ (proj1 (PO q))) as (E & _). exact E. }
  cbn [resolved] in PA. rewrite (proj1 (H1 C00)) in PA. fold b in PA.
  destruct (hpatternable_inv _ _ _ PA) as (P1 & P2 & P3 & P4).
  split; [apply H1|]. split; [apply PO|]. split; [exact P4|].
  assert (ST : forall q, fT (s1 q) = @zval reals ps (x q) (fi (s C00)) b (fT (s q)) /\
     fi (s1 q) = (if is_ind b then S (fi (s C00)) else fi (s C00)) /\
     fy (s1 q) = fy (s q) ++ out_of b (fT (s q))).
  { intros q. destruct (@zstep_inl reals _ _ _ _ _ (proj1 (H1 q))) as (_ & _ & A & B & C).
    rewrite RS, FI in *. auto. }
  do 3 (split; [apply ST|]).
  assert (CS : forall q, bchoices true b (fT (s q)) = bchoices true b (fT (s C00)) /\
                         bsigns b (fT (s q)) = bsigns b (fT (s C00))).
  { intros q. destruct (opieces_same _ _ _ (proj1 (PO q))) as (E & B & S). rewrite RS in *. auto. }
  split; [apply CS|]. split; [apply CS|]. auto.
Qed.

Lemma safe_sim t : forall h hs (s e : corner -> fstate reals) rows,
  nsrun cap ninds t (fi (s C00)) hs = HRows rows ->
  (forall sf, finish ninds sf = HRows rows -> ~ interact (hN sf)) ->
  (forall q, fi (s q) = fi (s C00)) ->
  inv (fun l => ~ In l h) (hA hs) (fun q => fT (s q)) -> flat_outputs s ->
  hpatternable (@resolved reals ps (x C00) t (s C00)) h = true ->
  (forall q, @pieces reals ps (x q) t (s q) = @pieces reals ps (x C00) t (s C00)) ->
  (forall q, @zrun reals ps (x q) t (s q) = Done (e q)) -> (forall q, (0 <= frc (e q))%Z) ->
  flat_outputs e.
Proof.
  induction t as [|o t IH]; intros h hs s e rows NR NI FI I FO PA PC Z F.
  - cbn [zrun] in Z. destruct FO as [L FO].
    assert (E : forall q, s q = e q) by (intros q; specialize (Z q); congruence).
    split; [intros q; rewrite <- !E; auto|]. intros m y H. apply (FO m). intros q. rewrite E. auto.
  - destruct (@step_all _ _ _ _ _ Z F PC PA FI) as (s1 & Z1 & PC1 & PA1 & T1 & I1 & Y1 & CB & SB & FG & RD & SN).
    destruct o as [b| | | | | | | | | | | | | | | | | | | |]; try discriminate NR.
    cbn [resolve] in *.
    assert (E : exists s', hsafe cap ninds (fi (s C00)) b hs = Some s' /\
       nsrun cap ninds t (if is_ind b then S (fi (s C00)) else fi (s C00)) s' = HRows rows).
    { cbn [nsrun] in NR. destruct b; try discriminate NR;
        match type of NR with match ?o with _ => _ end = _ => destruct o as [s'|] eqn:E; [|discriminate] end; eauto. }
    destruct E as (s' & E & NR').
    refine (IH (helpers b h) s' s1 e rows _ NI _ _ _ PA1 PC1 Z1 F).
    + rewrite I1. exact NR'.
    + intros q. now rewrite !I1.
    + eapply inv_ext_T with (T := fun q => @zval reals ps (x q) (fi (s C00)) b (fT (s q))).
      { intros q l. now rewrite T1. }
      eapply inv_sub; [|intros l0 Hl0; exact (@helpers_after reals (fun _ => 0) (fun _ => 0) (fun _ => 0) b h l0 Hl0)].
      eapply hsafe_step with (T := fun q => fT (s q)); eauto.
      destruct (nsrun_ext _ _ _ NR') as (sf & X & FS). eapply interact_ext; [exact X|]. now apply NI.
    + exact (@outputs_step s s1 h (hA hs) b FO I RD Y1).
Qed.

Lemma tight_sim t : forall h hs (s e : corner -> fstate reals) rows,
  @ntrun reals cap ninds ps (x C00) t (fi (s C00)) (fT (s C00)) hs = HRows rows ->
  (forall sf, finish ninds sf = HRows rows -> ~ interact (hN sf)) ->
  (forall q, fi (s q) = fi (s C00)) ->
  inv (fun l => ~ In l h) (hA hs) (fun q => fT (s q)) -> flat_outputs s ->
  hpatternable (@resolved reals ps (x C00) t (s C00)) h = true ->
  (forall q, @pieces reals ps (x q) t (s q) = @pieces reals ps (x C00) t (s C00)) ->
  (forall q, @zrun reals ps (x q) t (s q) = Done (e q)) -> (forall q, (0 <= frc (e q))%Z) ->
  flat_outputs e.
Proof.
  induction t as [|o t IH]; intros h hs s e rows NR NI FI I FO PA PC Z F.
  - cbn [zrun] in Z. destruct FO as [L FO].
    assert (E : forall q, s q = e q) by (intros q; specialize (Z q); congruence).
    split; [intros q; rewrite <- !E; auto|]. intros m y H. apply (FO m). intros q. rewrite E. auto.
  - destruct (@step_all _ _ _ _ _ Z F PC PA FI) as (s1 & Z1 & PC1 & PA1 & T1 & I1 & Y1 & CB & SB & FG & RD & SN).
    apply ntrun_step in NR. destruct NR as (s' & E & NR').
    rewrite tight_val in NR' by exact FG. set (b := resolve (fT (s C00)) o) in *.
    refine (IH (helpers b h) s' s1 e rows _ NI _ _ _ PA1 PC1 Z1 F).
    + rewrite I1, T1. exact NR'.
    + intros q. now rewrite !I1.
    + eapply inv_ext_T with (T := fun q => @zval reals ps (x q) (fi (s C00)) b (fT (s q))).
      { intros q l. now rewrite T1. }
      eapply inv_sub; [|intros l0 Hl0; exact (@helpers_after reals (fun _ => 0) (fun _ => 0) (fun _ => 0) b h l0 Hl0)].
      eapply htight_step with (T := fun q => fT (s q)); eauto.
      destruct (ntrun_ext _ _ _ _ _ NR') as (sf & X & FS). eapply interact_ext; [exact X|]. now apply NI.
    + exact (@outputs_step s s1 h (hA hs) b FO I RD Y1).
Qed.
End Sweep.

(* ------------------------------------------------------------------ *)
(* Rows.                                                                *)
Lemma ins_in e a : forall l, In a (ins e l) <-> a = e \/ In a l.
Proof.
  induction l as [|y l IH]; cbn [ins]; [cbn; intuition|].
  destruct (y <? e)%nat eqn:E1; [|destruct (e <? y)%nat eqn:E2].
  - cbn [In]. rewrite IH. tauto.
  - cbn [In]. intuition.
  - apply Nat.ltb_ge in E1. apply Nat.ltb_ge in E2. assert (y = e) by lia. subst. cbn [In]. intuition.
Qed.
Lemma fold_ins_in a : forall L l, In a (fold_left (fun b e => ins e b) L l) <-> In a L \/ In a l.
Proof.
  induction L as [|e L IH]; intros l; cbn [fold_left]; [cbn; tauto|].
  rewrite IH, ins_in. cbn [In]. intuition.
Qed.
Lemma gather_in i a : forall N acc r, gather i N acc = Some r ->
  (In a r <-> In a acc \/ exists f L, In (i, f) N /\ leaves f = Some L /\ In a L).
Proof.
  induction N as [|[e f] N IH]; intros acc r H; cbn [gather] in H.
  - injection H as <-. split; auto. intros [H|(f & L & [] & _)]; auto.
  - destruct (e =? i)%nat eqn:E.
    + apply Nat.eqb_eq in E. subst e. destruct (leaves f) as [L|] eqn:HL; [|discriminate].
      rewrite (IH _ _ H), fold_ins_in. split.
      * intros [[A|A]|(f' & L' & A & B & C)]; auto.
        -- right. exists f, L. cbn. auto.
        -- right. exists f', L'. cbn. auto.
      * intros [A|(f' & L' & [A|A] & B & C)]; auto.
        -- injection A as <-. rewrite HL in B. injection B as <-. auto.
        -- right. exists f', L'. auto.
    + apply Nat.eqb_neq in E. rewrite (IH _ _ H). split.
      * intros [A|(f' & L' & A & B & C)]; auto. right. exists f', L'. cbn. auto.
      * intros [A|(f' & L' & [A|A] & B & C)]; auto; [congruence|]. right. exists f', L'. auto.
Qed.
Lemma all_rows_nth N : forall n k rows i r, all_rows n k N = Some rows -> nth_error rows i = Some r ->
  gather (k + i) N [] = Some r.
Proof.
  induction n as [|n IH]; intros k rows i r H E; cbn [all_rows] in H.
  - injection H as <-. destruct i; discriminate.
  - destruct (gather k N []) as [r0|] eqn:G; [|discriminate].
    destruct (all_rows n (S k) N) as [rs|] eqn:A; [|discriminate]. injection H as <-.
    destruct i as [|i]; cbn in E.
    + injection E as <-. now rewrite Nat.add_0_r.
    + rewrite Nat.add_succ_r. apply (IH (S k) rs); auto.
Qed.
Lemma finish_row ninds sf rows i r : finish ninds sf = HRows rows -> nth_error rows i = Some r ->
  forall j, (In j r <-> interact i j (hN sf)).
Proof.
  unfold finish. destruct (all_rows ninds 0 (hN sf)) as [rs|] eqn:A; [|discriminate].
  intros [= <-] E j. pose proof (@all_rows_nth _ _ _ _ _ _ A E) as G. cbn in G.
  rewrite (@gather_in _ _ _ _ _ G). unfold interact. cbn. intuition.
Qed.
