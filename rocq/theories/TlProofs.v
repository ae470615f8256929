(** The operators of adtl compute value and derivative. *)
From Coq Require Import List Arith Bool Lia Reals Lra.
From Coquelicot Require Import Coquelicot.
From Verif Require Import AdReal AdDeriv TlModel TlSpec TlDeriv.
Unset Asymmetric Patterns.
Local Open Scope R_scope.

(** ** Memory *)
Lemma upd_at : forall M o i v, upd M o i v o i = v.
Proof. intros. unfold upd. now rewrite !Nat.eqb_refl. Qed.
Lemma upd_o : forall M o i v o' i', o' <> o -> upd M o i v o' i' = M o' i'.
Proof. intros. unfold upd. now rewrite (proj2 (Nat.eqb_neq o' o)). Qed.
Lemma upd_i : forall M o i v o' i', i' <> i -> upd M o i v o' i' = M o' i'.
Proof. intros. unfold upd. rewrite (proj2 (Nat.eqb_neq i' i)) by assumption. now rewrite andb_false_r. Qed.

Lemma prim_at : forall M o v, prim M o v o 0%nat = v.
Proof. intros. apply upd_at. Qed.
Lemma prim_o : forall M o v o' i, o' <> o -> prim M o v o' i = M o' i.
Proof. intros. now apply upd_o. Qed.
Lemma prim_i : forall M o v o' i, (1 <= i)%nat -> prim M o v o' i = M o' i.
Proof. intros. apply upd_i. lia. Qed.

(** what a loop body may read *)
Definition reads (f : mem -> nat -> R) : Prop :=
  forall M M' i, (1 <= i)%nat -> (forall o, M' o 0%nat = M o 0%nat) -> (forall o, M' o i = M o i) -> f M' i = f M i.
Definition reads0 (f : mem -> nat -> R) : Prop :=
  forall M M' i, (forall o, M' o i = M o i) -> f M' i = f M i.

Lemma loop_effect : forall (o : nat) (f : mem -> nat -> R) l M, List.NoDup l ->
  (forall M' i, In i l -> (forall o' j, ~ In j l \/ o' <> o -> M' o' j = M o' j) -> (forall o', M' o' i = M o' i) -> f M' i = f M i) ->
  forall o' i, fold_left (fun M i => upd M o i (f M i)) l M o' i
  = if (o' =? o)%nat && existsb (Nat.eqb i) l then f M i else M o' i.
Proof.
  intros o f l. induction l as [|j l IH]; intros M U F o' i; cbn [fold_left existsb].
  - now rewrite andb_false_r.
  - apply NoDup_cons_iff in U. destruct U as [U1 U2]. rewrite IH; [|assumption|].
    + destruct (Nat.eqb_spec o' o) as [->|N]; cbn [andb].
      * destruct (existsb (Nat.eqb i) l) eqn:E.
        -- rewrite orb_true_r. apply F.
           ++ right. apply existsb_exists in E. destruct E as (y & Y & E). apply Nat.eqb_eq in E. now subst.
           ++ intros o' k [K|K]; [|now apply upd_o]. apply upd_i. intros ->. apply K. now left.
           ++ intros o'. apply upd_i. intros ->. apply U1. apply existsb_exists in E. destruct E as (y & Y & E).
              apply Nat.eqb_eq in E. now subst.
        -- rewrite orb_false_r. destruct (Nat.eqb_spec i j) as [->|N].
           ++ apply upd_at.
           ++ now apply upd_i.
      * now apply upd_o.
    + intros M' k K Hk Hk'.
      assert (k <> j) as N by (intros ->; contradiction).
      transitivity (f M k).
      * apply F; [now right| |].
        -- intros o'' q [Q|Q].
           ++ rewrite Hk; [|left; intros X; apply Q; now right]. apply upd_i. intros ->. apply Q. now left.
           ++ rewrite Hk by now right. now apply upd_o.
        -- intros o''. rewrite Hk'. now apply upd_i.
      * symmetry. apply F; [now right| |].
        -- intros o'' q [Q|Q]; [|now apply upd_o]. apply upd_i. intros ->. apply Q. now left.
        -- intros o''. now apply upd_i.
Qed.

Section Loops.
Variable nd : nat.
Lemma dirs_eff : forall M o f, reads f -> forall o' i,
  dirs nd M o f o' i = if (o' =? o)%nat && ((1 <=? i) && (i <=? nd))%nat then f M i else M o' i.
Proof.
  intros M o f F o' i. unfold dirs. rewrite loop_effect; [|apply seq_NoDup|].
  - assert (existsb (Nat.eqb i) (seq 1 nd) = ((1 <=? i) && (i <=? nd))%nat) as ->; [|reflexivity].
    apply eq_true_iff_eq. rewrite existsb_exists. rewrite andb_true_iff, Nat.leb_le, Nat.leb_le. split.
    + intros (x & X & E). apply Nat.eqb_eq in E. subst. apply in_seq in X. lia.
    + intros H. exists i. split; [apply in_seq; lia|apply Nat.eqb_refl].
  - intros M' k K H H'. apply in_seq in K. apply F; [lia| |exact H'].
    intros o''. apply H. left. rewrite in_seq. lia.
Qed.
Lemma dirs_at : forall M o f i, reads f -> (1 <= i <= nd)%nat -> dirs nd M o f o i = f M i.
Proof.
  intros M o f i F H. rewrite dirs_eff, Nat.eqb_refl by assumption.
  now rewrite (proj2 (Nat.leb_le 1 i)), (proj2 (Nat.leb_le i nd)) by lia.
Qed.
Lemma dirs_0 : forall M o f o', reads f -> dirs nd M o f o' 0%nat = M o' 0%nat.
Proof. intros. rewrite dirs_eff by assumption. cbn. now rewrite andb_false_r. Qed.
Lemma dirs_o : forall M o f o' i, reads f -> o' <> o -> dirs nd M o f o' i = M o' i.
Proof. intros. rewrite dirs_eff by assumption. now rewrite (proj2 (Nat.eqb_neq o' o)). Qed.
Lemma alls_eff : forall M o f, reads0 f -> forall o' i,
  alls nd M o f o' i = if (o' =? o)%nat && (i <=? nd)%nat then f M i else M o' i.
Proof.
  intros M o f F o' i. unfold alls. rewrite loop_effect; [|apply seq_NoDup|].
  - assert (existsb (Nat.eqb i) (seq 0 (S nd)) = (i <=? nd)%nat) as ->; [|reflexivity].
    apply eq_true_iff_eq. rewrite existsb_exists, Nat.leb_le. split.
    + intros (x & X & E). apply Nat.eqb_eq in E. subst. apply in_seq in X. lia.
    + intros H. exists i. split; [apply in_seq; lia|apply Nat.eqb_refl].
  - intros M' k K H H'. apply F. exact H'.
Qed.
Lemma alls_at : forall M o f i, reads0 f -> (i <= nd)%nat -> alls nd M o f o i = f M i.
Proof. intros. rewrite alls_eff, Nat.eqb_refl, (proj2 (Nat.leb_le i nd)) by assumption. reflexivity. Qed.
Lemma alls_o : forall M o f o' i, reads0 f -> o' <> o -> alls nd M o f o' i = M o' i.
Proof. intros. rewrite alls_eff by assumption. now rewrite (proj2 (Nat.eqb_neq o' o)). Qed.
End Loops.

Ltac rds := match goal with
  | |- reads _ => let M := fresh in let M' := fresh in let i := fresh in let P := fresh in let E := fresh in let F := fresh in
      intros M M' i P E F; cbv beta;
      try replace (1 + (i - 1))%nat with i by lia;
      rewrite ?E, ?F; try reflexivity
  | |- reads0 _ => let M := fresh in let M' := fresh in let i := fresh in let F := fresh in
      intros M M' i F; cbv beta; rewrite ?F; reflexivity
  end.
(** evaluate a cell of the memory after an operator; t, the new object, differs from
    the operands *)
Ltac cell1 := first
  [ rewrite dirs_at by (first [rds | lia]) | rewrite dirs_0 by rds | rewrite dirs_o by (first [rds | congruence])
  | rewrite alls_at by (first [rds | lia]) | rewrite alls_o by (first [rds | congruence])
  | rewrite prim_at | rewrite prim_o by congruence | rewrite prim_i by lia ].
Ltac cells := cbv beta zeta; unfold ctor_dv, ctor_d, ctor_copy, ctor; cbv beta; repeat (cell1; cbv beta).

Section Steps.
Variables nan inf : R.
Variable nd : nat.

Ltac cases := repeat match goal with
  | |- context [Rlt_dec ?a ?b] => destruct (Rlt_dec a b)
  | |- context [Req_EM_T ?a ?b] => destruct (Req_EM_T a b)
  | |- context [Rle_dec ?a ?b] => destruct (Rle_dec a b) end.

Lemma call1_value : forall f M t a, t <> a -> call1 nan inf nd f M t a t 0%nat = plain1 f (M a 0%nat).
Proof. intros f M t a N. destruct f; cbn [call1 plain1]; cells; try reflexivity; cases; cells; try reflexivity. Qed.
Lemma call1_frame : forall f M t a o i, o <> t -> t <> a -> call1 nan inf nd f M t a o i = M o i.
Proof. intros f M t a o i O N. destruct f; cbn [call1]; cells; try reflexivity; cases; cells; try reflexivity. Qed.
Lemma call2_value : forall g M t a b, t <> a -> t <> b -> call2 nd g M t a b t 0%nat = plain2 g (M a 0%nat) (M b 0%nat).
Proof.
  intros g M t a b A B. destruct g; cbn [call2 plain2]; cells; try reflexivity; cases; cells; try reflexivity;
    unfold Rmax, Rmin; cases; lra.
Qed.
Lemma call2_frame : forall g M t a b o i, o <> t -> t <> a -> t <> b -> call2 nd g M t a b o i = M o i.
Proof. intros g M t a b o i O A B. destruct g; cbn [call2]; cells; try reflexivity; cases; cells; reflexivity. Qed.

Lemma call1_der : forall f M t a i h, t <> a -> (1 <= i <= nd)%nat -> h 0 = M a 0%nat -> rd h (M a i) ->
  smooth1 f (M a 0%nat) -> rd (fun s => plain1 f (h s)) (call1 nan inf nd f M t a t i).
Proof.
  intros f M t a i h N I E H Sm. rewrite <- E in Sm.
  destruct f; cbn [call1 plain1 smooth1] in *; cells; try rewrite <- E.
  - (* - *) now apply rd_opp.
  - (* tan *) eapply rd_eq; [exact (rd_comp tan h _ _ H (der_tan _ Sm))|]. field. exact Sm.
  - (* exp *) exact (rd_comp exp h _ _ H (der_exp _)).
  - (* log *) destruct (Rlt_dec 0 (h 0)); [|contradiction].
    eapply rd_eq; [exact (rd_comp ln h _ _ H (@der_ln _ Sm))|]. field. lra.
  - (* sqrt *) destruct (Rlt_dec 0 (h 0)); [|contradiction].
    eapply rd_eq; [exact (rd_comp sqrt h _ _ H (@der_sqrt _ Sm))|]. field. apply Rgt_not_eq. now apply sqrt_lt_R0.
  - (* cbrt *) destruct (Req_EM_T (h 0) 0); [contradiction|].
    assert (Rcbrt (h 0) <> 0) as Nz.
    { unfold Rcbrt. pose proof (exp_pos (/ 3 * ln (h 0))). pose proof (exp_pos (/ 3 * ln (- h 0))).
      destruct (Rlt_dec 0 (h 0)); [unfold Rpower; lra|]. destruct (Rlt_dec (h 0) 0); [unfold Rpower; lra|lra]. }
    eapply rd_eq; [exact (rd_comp Rcbrt h _ _ H (@der_cbrt _ Sm))|]. field. exact Nz.
  - (* sin *) exact (rd_comp _ h _ _ H (der_sin _)).
  - (* cos *) exact (rd_comp _ h _ _ H (der_cos _)).
  - (* asin *) eapply rd_eq; [exact (rd_comp _ h _ _ H (@der_asin _ Sm))|]. field.
    apply Rgt_not_eq. apply sqrt_lt_R0. nra.
  - (* acos *) eapply rd_eq; [exact (rd_comp _ h _ _ H (@der_acos _ Sm))|]. field.
    apply Rgt_not_eq. apply sqrt_lt_R0. nra.
  - (* atan *) destruct (Req_EM_T (1 / (1 + h 0 * h 0)) 0) as [Z|Z].
    + exfalso. assert (0 < 1 / (1 + h 0 * h 0)); [|lra]. apply Rdiv_lt_0_compat; nra.
    + cells. try rewrite <- E. eapply rd_eq; [exact (rd_comp _ h _ _ H (der_atan _))|]. field. nra.
  - (* log10 *) pose proof ln10_pos. eapply rd_eq; [exact (rd_comp _ h _ _ H (der_log10 _ Sm))|]. field. lra.
  - (* sinh *) eapply rd_eq; [exact (rd_comp _ h _ _ H (der_sinh _))|]. ring.
  - (* cosh *) eapply rd_eq; [exact (rd_comp _ h _ _ H (der_cosh _))|]. ring.
  - (* tanh *) pose proof (cosh_pos (h 0)). eapply rd_eq; [exact (rd_comp _ h _ _ H (der_tanh _))|]. field. lra.
  - (* asinh *) eapply rd_eq; [exact (rd_comp _ h _ _ H (der_asinh _))|]. field.
    apply Rgt_not_eq. apply sqrt_lt_R0. nra.
  - (* acosh *) eapply rd_eq; [exact (rd_comp _ h _ _ H (@der_acosh _ Sm))|]. field.
    apply Rgt_not_eq. apply sqrt_lt_R0. nra.
  - (* atanh *) eapply rd_eq; [exact (rd_comp _ h _ _ H (@der_atanh _ Sm))|]. field. nra.
  - (* fabs *) eapply rd_eq; [exact (rd_abs h _ H)|].
    destruct (Rlt_dec 0 (h 0)); [cells; ring|]. destruct (Rlt_dec (h 0) 0); cells; [ring|].
    destruct (Rlt_dec (M a i) 0); [rewrite Rabs_left by assumption; ring|].
    destruct (Rlt_dec 0 (M a i)); [rewrite Rabs_pos_eq by lra; ring|].
    replace (M a i) with 0 by lra. rewrite Rabs_R0. ring.
  - (* ceil *) eapply rd_eq; [exact (rd_comp _ h _ _ H (@der_ceil _ Sm))|]. ring.
  - (* floor *) eapply rd_eq; [exact (rd_comp _ h _ _ H (@der_floor _ Sm))|]. ring.
  - (* erf *) exact (rd_comp _ h _ _ H (der_erf _)).
  - (* erfc *) eapply rd_eq; [exact (rd_comp _ h _ _ H (der_erfc _))|].
    unfold Rdiv. ring.
Qed.

Lemma call2_der : forall g M t a b i h k, t <> a -> t <> b -> (1 <= i <= nd)%nat ->
  h 0 = M a 0%nat -> rd h (M a i) -> k 0 = M b 0%nat -> rd k (M b i) ->
  smooth2 g (M a 0%nat) (M b 0%nat) -> rd (fun s => plain2 g (h s) (k s)) (call2 nd g M t a b t i).
Proof.
  intros g M t a b i h k A B I E H E' K Sm. rewrite <- E, <- E' in Sm.
  destruct g; cbn [call2 plain2 smooth2] in *; cells; try rewrite <- E; try rewrite <- E'.
  - now apply rd_plus.
  - now apply rd_minus.
  - now apply rd_mult.
  - now apply rd_div.
  - (* atan2 *) assert (k 0 <> 0) as Z by (destruct Sm as [G|[G _]]; lra).
    assert (0 < k 0 * k 0) as P by nra. assert (0 <= h 0 * h 0) as Q by nra.
    destruct (Req_EM_T (k 0 * k 0 / (h 0 * h 0 + k 0 * k 0)) 0) as [X|X].
    + exfalso. assert (0 < k 0 * k 0 / (h 0 * h 0 + k 0 * k 0)); [apply Rdiv_lt_0_compat; lra|lra].
    + cells. try rewrite <- E. try rewrite <- E'. eapply rd_eq; [exact (rd_atan2 h k _ _ H K Sm)|]. field.
      repeat split; try exact Z; lra.
  - (* pow *) eapply rd_eq; [exact (rd_pow h k _ _ H K Sm)|]. ring.
  - (* fmax *) eapply rd_eq; [exact (rd_max h k _ _ H K)|].
    destruct (Rlt_dec (h 0) (k 0)), (Rlt_dec (h 0 - k 0) 0); try lra; cells; try reflexivity.
    destruct (Rlt_dec (k 0) (h 0)), (Rlt_dec 0 (h 0 - k 0)); try lra; cells; try reflexivity.
    unfold Rmax. destruct (Rle_dec (M a i) (M b i)), (Rlt_dec (M a i) (M b i)); lra.
  - (* fmin *) eapply rd_eq; [exact (rd_min h k _ _ H K)|].
    destruct (Rlt_dec (h 0) (k 0)), (Rlt_dec (h 0 - k 0) 0); try lra; cells; try reflexivity.
    destruct (Rlt_dec (k 0) (h 0)), (Rlt_dec 0 (h 0 - k 0)); try lra; cells; try reflexivity.
    unfold Rmin. destruct (Rle_dec (M a i) (M b i)), (Rlt_dec (M a i) (M b i)); lra.
Qed.

(** a double operand *)
Lemma ctor_d_at : forall M h v, ctor_d nd M h v h 0%nat = v.
Proof. intros. cells. reflexivity. Qed.
Lemma ctor_d_der : forall M h v i, (1 <= i <= nd)%nat -> ctor_d nd M h v h i = 0.
Proof. intros. cells. reflexivity. Qed.
Lemma ctor_d_o : forall M h v o i, o <> h -> ctor_d nd M h v o i = M o i.
Proof. intros. cells. reflexivity. Qed.

Lemma call2l_value : forall g M t h v a, t <> a -> h <> a -> (g = Atan2 -> h <> t) ->
  call2l nd g M t h v a t 0%nat = plain2 g v (M a 0%nat).
Proof.
  intros g M t h v a A B C. destruct g; cbn [call2l plain2]; cells; try reflexivity.
  - fold (ctor M h). specialize (C eq_refl).
    rewrite (call2_value Atan2) by congruence. fold (ctor_d nd M h v). rewrite ctor_d_at, ctor_d_o by congruence. reflexivity.
  - cases; cells; unfold Rmax; cases; try reflexivity; lra.
  - cases; cells; unfold Rmin; cases; try reflexivity; lra.
Qed.
Lemma call2r_value : forall g M t h a v, t <> a -> h <> a -> (g = Atan2 -> h <> t) ->
  call2r nd g M t h a v t 0%nat = plain2 g (M a 0%nat) v.
Proof.
  intros g M t h a v A B C. destruct g; cbn [call2r plain2]; cells; try reflexivity.
  - fold (ctor M h). specialize (C eq_refl).
    rewrite (call2_value Atan2) by congruence. fold (ctor_d nd M h v). rewrite ctor_d_at, ctor_d_o by congruence. reflexivity.
  - cases; cells; unfold Rmax; cases; try reflexivity; lra.
  - cases; cells; unfold Rmin; cases; try reflexivity; lra.
Qed.
Lemma call2l_frame : forall g M t h v a o i, o <> t -> t <> a -> h <> a -> (g = Atan2 -> h <> t) -> (g = Atan2 -> o <> h) ->
  call2l nd g M t h v a o i = M o i.
Proof.
  intros g M t h v a o i O A B C D. destruct g; cbn [call2l]; cells; try reflexivity; try (cases; cells; reflexivity).
  specialize (C eq_refl). specialize (D eq_refl).
  rewrite (call2_frame Atan2) by congruence. cells. reflexivity.
Qed.
Lemma call2r_frame : forall g M t h a v o i, o <> t -> t <> a -> h <> a -> (g = Atan2 -> h <> t) -> (g = Atan2 -> o <> h) ->
  call2r nd g M t h a v o i = M o i.
Proof.
  intros g M t h a v o i O A B C D. destruct g; cbn [call2r]; cells; try reflexivity; try (cases; cells; reflexivity).
  specialize (C eq_refl). specialize (D eq_refl).
  rewrite (call2_frame Atan2) by congruence. cells. reflexivity.
Qed.
Lemma call2l_helper : forall M t h v a, t <> a -> h <> a -> h <> t -> 
  call2l nd Atan2 M t h v a h 0%nat = v /\ forall i, (1 <= i <= nd)%nat -> call2l nd Atan2 M t h v a h i = 0.
Proof.
  intros M t h v a A B C. cbn [call2l]. split; [|intros i I]; rewrite (call2_frame Atan2) by congruence; cells; reflexivity.
Qed.
Lemma call2r_helper : forall M t h a v, t <> a -> h <> a -> h <> t -> 
  call2r nd Atan2 M t h a v h 0%nat = v /\ forall i, (1 <= i <= nd)%nat -> call2r nd Atan2 M t h a v h i = 0.
Proof.
  intros M t h a v A B C. cbn [call2r]. split; [|intros i I]; rewrite (call2_frame Atan2) by congruence; cells; reflexivity.
Qed.

Lemma call2l_der : forall g M t h v a i k, t <> a -> h <> a -> (g = Atan2 -> h <> t) -> (1 <= i <= nd)%nat ->
  k 0 = M a 0%nat -> rd k (M a i) -> smooth2 g v (M a 0%nat) ->
  rd (fun s => plain2 g v (k s)) (call2l nd g M t h v a t i).
Proof.
  intros g M t h v a i k A B C I E K Sm. rewrite <- E in Sm.
  destruct g; cbn [call2l plain2 smooth2] in *; cells; try rewrite <- E.
  - replace (1 + (i - 1))%nat with i by lia. cells.
    eapply rd_eq; [exact (rd_plus _ _ _ _ (rd_const v) K)|]. apply Rplus_0_l.
  - eapply rd_eq; [exact (rd_minus _ _ _ _ (rd_const v) K)|]. cbv beta. lra.
  - eapply rd_eq; [exact (rd_mult _ _ _ _ (rd_const v) K)|]. cbv beta. lra.
  - eapply rd_eq; [exact (rd_div _ _ _ _ (rd_const v) K Sm)|]. cbv beta. field. exact Sm.
  - fold (ctor M h). specialize (C eq_refl). fold (ctor_d nd M h v).
    apply (call2_der Atan2 (ctor_d nd M h v) t h a i (fun _ => v) k); try congruence; try assumption;
      rewrite ?ctor_d_at, ?ctor_d_der, ?ctor_d_o by (try congruence; assumption); try congruence; try assumption;
      try apply rd_const; try (cbn [smooth2]; rewrite <- E; assumption).
  - eapply rd_eq; [exact (rd_pow _ _ _ _ (rd_const v) K Sm)|]. cbv beta. lra.
  - eapply rd_eq; [exact (rd_max _ _ _ _ (rd_const v) K)|].
    destruct (Rlt_dec v (k 0)), (Rlt_dec (v - k 0) 0); try lra; cells; try reflexivity.
    destruct (Rlt_dec (k 0) v), (Rlt_dec 0 (v - k 0)); try lra; cells; try reflexivity.
    unfold Rmax. destruct (Rle_dec 0 (M a i)), (Rlt_dec 0 (M a i)); lra.
  - eapply rd_eq; [exact (rd_min _ _ _ _ (rd_const v) K)|].
    destruct (Rlt_dec v (k 0)), (Rlt_dec (v - k 0) 0); try lra; cells; try reflexivity.
    destruct (Rlt_dec (k 0) v), (Rlt_dec 0 (v - k 0)); try lra; cells; try reflexivity.
    unfold Rmin. destruct (Rle_dec 0 (M a i)), (Rlt_dec (M a i) 0); lra.
Qed.
Lemma call2r_der : forall g M t h a v i k, t <> a -> h <> a -> (g = Atan2 -> h <> t) -> (1 <= i <= nd)%nat ->
  k 0 = M a 0%nat -> rd k (M a i) -> smooth2r g (M a 0%nat) v ->
  rd (fun s => plain2 g (k s) v) (call2r nd g M t h a v t i).
Proof.
  intros g M t h a v i k A B C I E K Sm. rewrite <- E in Sm.
  destruct g; cbn [call2r plain2 smooth2r smooth2] in *; cells; try rewrite <- E.
  - replace (1 + (i - 1))%nat with i by lia. cells.
    eapply rd_eq; [exact (rd_plus _ _ _ _ K (rd_const v))|]. cbv beta. lra.
  - replace (1 + (i - 1))%nat with i by lia. cells.
    eapply rd_eq; [exact (rd_minus _ _ _ _ K (rd_const v))|]. cbv beta. lra.
  - eapply rd_eq; [exact (rd_mult _ _ _ _ K (rd_const v))|]. cbv beta. lra.
  - eapply rd_eq; [exact (rd_div _ _ _ _ K (rd_const v) Sm)|]. cbv beta. field. exact Sm.
  - fold (ctor M h). specialize (C eq_refl). fold (ctor_d nd M h v).
    apply (call2_der Atan2 (ctor_d nd M h v) t a h i k (fun _ => v)); try congruence; try assumption;
      rewrite ?ctor_d_at, ?ctor_d_der, ?ctor_d_o by (try congruence; assumption); try congruence; try assumption;
      try apply rd_const; try (cbn [smooth2]; rewrite <- E; assumption).
  - exact (rd_comp (fun x => Rvpow x v) k _ _ K (der_vpow_r _ _ Sm)).
  - eapply rd_eq; [exact (rd_max _ _ _ _ K (rd_const v))|].
    destruct (Rlt_dec (k 0) v), (Rlt_dec (k 0 - v) 0); try lra; cells; try reflexivity.
    destruct (Rlt_dec v (k 0)), (Rlt_dec 0 (k 0 - v)); try lra; cells; try reflexivity.
    unfold Rmax. destruct (Rle_dec (M a i) 0), (Rlt_dec 0 (M a i)); lra.
  - eapply rd_eq; [exact (rd_min _ _ _ _ K (rd_const v))|].
    destruct (Rlt_dec (k 0) v), (Rlt_dec (k 0 - v) 0); try lra; cells; try reflexivity.
    destruct (Rlt_dec v (k 0)), (Rlt_dec 0 (k 0 - v)); try lra; cells; try reflexivity.
    unfold Rmin. destruct (Rle_dec (M a i) 0), (Rlt_dec (M a i) 0); lra.
Qed.

(** ** One statement *)
Definition vals (M : mem) : store := fun o => M o 0%nat.
Definition tied (i : nat) (clean : nat -> Prop) (M : mem) (X : R -> store) : Prop :=
  (forall o, X 0 o = M o 0%nat) /\ (forall o, clean o -> rd (fun s => X s o) (M o i)).

Lemma put_at : forall d o v, put d o v o = v.
Proof. intros. unfold put. now rewrite Nat.eqb_refl. Qed.
Lemma put_o : forall d o v o', o' <> o -> put d o v o' = d o'.
Proof. intros. unfold put. now rewrite (proj2 (Nat.eqb_neq o' o)). Qed.

(** a statement that changes one object *)
Lemma one_object : forall i (clean clean' : nat -> Prop) M M' X t (e : store -> R),
  tied i clean M X ->
  (forall o j, o <> t -> M' o j = M o j) ->
  (forall o, clean' o -> o = t \/ clean o) ->
  e (X 0) = M' t 0%nat ->
  (clean' t -> rd (fun s => e (X s)) (M' t i)) ->
  tied i clean' M' (fun s => put (X s) t (e (X s))).
Proof.
  intros i clean clean' M M' X t e [V D] F C E R. split.
  - intros o. destruct (Nat.eq_dec o t) as [->|N]; [now rewrite put_at|]. rewrite put_o, F by assumption. apply V.
  - intros o O. destruct (Nat.eq_dec o t) as [->|N].
    + eapply rd_ext; [|exact (R O)]. intros s. now rewrite put_at.
    + rewrite F by assumption. eapply rd_ext; [|apply D; destruct (C o O); [contradiction|assumption]].
      intros s. now rewrite put_o.
Qed.

Lemma step_tied : forall s i clean M X, (1 <= i <= nd)%nat -> tied i clean M X -> good_step s clean (X 0) ->
  tied i (clean_after s clean) (step nan inf nd s M) (fun u => plain_step s (X u)).
Proof.
  intros s i clean M X I T G. pose proof T as [V D].
  destruct s; cbn [good_step clean_after step plain_step] in *.
  - (* New *) apply (one_object i clean _ M _ X t (fun _ => 0)); [exact T| |intros o [O _]; now right| |intros [_ O]; contradiction].
    + intros o j O. unfold ctor. now apply prim_o.
    + unfold ctor. now rewrite prim_at.
  - (* NewD *) apply (one_object i clean _ M _ X t (fun _ => v)); [exact T| |tauto| |intros _].
    + intros. now apply ctor_d_o.
    + now rewrite ctor_d_at.
    + rewrite ctor_d_der by assumption. apply rd_const.
  - (* NewCopy *) destruct G as [G1 G2]. apply (one_object i clean _ M _ X t (fun d => d a)); [exact T| |tauto| |intros _].
    + intros. cells. reflexivity.
    + cells. apply V.
    + cells. now apply D.
  - (* Call1 *) destruct G as (G1 & G2 & G3).
    apply (one_object i clean _ M _ X t (fun d => plain1 f (d a))); [exact T| |tauto| |intros _].
    + intros. now apply call1_frame.
    + rewrite call1_value by assumption. now rewrite V.
    + apply (call1_der f M t a i (fun s => X s a)); try assumption; [apply V|now apply D|now rewrite <- V].
  - (* Call2 *) destruct G as (G1 & G2 & G3 & G4 & G5).
    apply (one_object i clean _ M _ X t (fun d => plain2 g (d a) (d b))); [exact T| |tauto| |intros _].
    + intros. now apply call2_frame.
    + rewrite call2_value by assumption. now rewrite !V.
    + apply (call2_der g M t a b i (fun s => X s a) (fun s => X s b)); try assumption; try apply V; try (now apply D).
      now rewrite <- !V.
  - (* Call2L *) destruct G as (G1 & G2 & G3 & G4 & G5).
    destruct (match g with Atan2 => true | _ => false end) eqn:Eg.
    + assert (g = Atan2) as -> by (destruct g; congruence). specialize (G4 eq_refl).
      pose proof (call2l_helper M t h v a G2 G3 G4) as [Hv Hd].
      split.
      * intros o. destruct (Nat.eq_dec o t) as [->|N].
        -- rewrite put_at, call2l_value by (try assumption; auto). now rewrite V.
        -- rewrite put_o by assumption. destruct (Nat.eq_dec o h) as [->|N'].
           ++ rewrite put_at. now rewrite Hv.
           ++ rewrite put_o, call2l_frame by (try assumption; auto). apply V.
      * intros o O. destruct (Nat.eq_dec o t) as [->|N].
        -- eapply rd_ext; [|apply (call2l_der Atan2 M t h v a i (fun s => X s a)); try assumption; auto].
           ++ intros u. now rewrite put_at.
           ++ now rewrite <- V.
        -- destruct (Nat.eq_dec o h) as [->|N'].
           ++ rewrite Hd by assumption. eapply rd_ext; [|apply (rd_const v)]. intros u. now rewrite put_o, put_at.
           ++ rewrite call2l_frame by (try assumption; auto). eapply rd_ext; [|apply D; destruct O as [O|[O|[_ O]]]; [exact O|contradiction|contradiction]].
              intros u. cbv beta. now rewrite !put_o.
    + assert (g <> Atan2) as Ng by (intros ->; discriminate).
      assert (forall d : store, (match g with Atan2 => put d h v | _ => d end) = d) as Ed by (intros; destruct g; congruence).
      cut (tied i (fun o => clean o \/ o = t \/ g = Atan2 /\ o = h) (call2l nd g M t h v a)
             (fun u => put (X u) t (plain2 g v (X u a)))).
      { intros [P Q]. split; [intros o; rewrite Ed; apply P|]. intros o O. eapply rd_ext; [|apply Q, O]. intros u. cbv beta. now rewrite Ed. }
      apply (one_object i clean _ M _ X t (fun d => plain2 g v (d a))); [exact T| | | |intros _].
      * intros. apply call2l_frame; try assumption; intros; contradiction.
      * intros o [O|[O|[O _]]]; [now right|now left|contradiction].
      * rewrite call2l_value by (try assumption; intros; contradiction). now rewrite V.
      * apply (call2l_der g M t h v a i (fun s => X s a)); try assumption; [apply V|now apply D|now rewrite <- V].
  - (* Call2R *) destruct G as (G1 & G2 & G3 & G4 & G5).
    destruct (match g with Atan2 => true | _ => false end) eqn:Eg.
    + assert (g = Atan2) as -> by (destruct g; congruence). specialize (G4 eq_refl).
      pose proof (call2r_helper M t h a v G2 G3 G4) as [Hv Hd].
      split.
      * intros o. destruct (Nat.eq_dec o t) as [->|N].
        -- rewrite put_at, call2r_value by (try assumption; auto). now rewrite V.
        -- rewrite put_o by assumption. destruct (Nat.eq_dec o h) as [->|N'].
           ++ rewrite put_at. now rewrite Hv.
           ++ rewrite put_o, call2r_frame by (try assumption; auto). apply V.
      * intros o O. destruct (Nat.eq_dec o t) as [->|N].
        -- eapply rd_ext; [|apply (call2r_der Atan2 M t h a v i (fun s => X s a)); try assumption; auto].
           ++ intros u. now rewrite put_at.
           ++ now rewrite <- V.
        -- destruct (Nat.eq_dec o h) as [->|N'].
           ++ rewrite Hd by assumption. eapply rd_ext; [|apply (rd_const v)]. intros u. now rewrite put_o, put_at.
           ++ rewrite call2r_frame by (try assumption; auto). eapply rd_ext; [|apply D; destruct O as [O|[O|[_ O]]]; [exact O|contradiction|contradiction]].
              intros u. cbv beta. now rewrite !put_o.
    + assert (g <> Atan2) as Ng by (intros ->; discriminate).
      assert (forall d : store, (match g with Atan2 => put d h v | _ => d end) = d) as Ed by (intros; destruct g; congruence).
      cut (tied i (fun o => clean o \/ o = t \/ g = Atan2 /\ o = h) (call2r nd g M t h a v)
             (fun u => put (X u) t (plain2 g (X u a) v))).
      { intros [P Q]. split; [intros o; rewrite Ed; apply P|]. intros o O. eapply rd_ext; [|apply Q, O]. intros u. cbv beta. now rewrite Ed. }
      apply (one_object i clean _ M _ X t (fun d => plain2 g (d a) v)); [exact T| | | |intros _].
      * intros. apply call2r_frame; try assumption; intros; contradiction.
      * intros o [O|[O|[O _]]]; [now right|now left|contradiction].
      * rewrite call2r_value by (try assumption; intros; contradiction). now rewrite V.
      * apply (call2r_der g M t h a v i (fun s => X s a)); try assumption; [apply V|now apply D|now rewrite <- V].
  - (* AssignD *) unfold assign_d. apply (one_object i clean _ M _ X x (fun _ => v)); [exact T| |tauto| |intros _].
    + intros. cells. reflexivity.
    + cells. reflexivity.
    + cells. apply rd_const.
  - (* Assign *) unfold assign. apply (one_object i clean _ M _ X x (fun d => d a)); [exact T| |tauto| |intros _].
    + intros. cells. reflexivity.
    + cells. apply V.
    + cells. now apply D.
  - (* CompD *) destruct G as [G1 G2].
    apply (one_object i clean _ M _ X x (fun d => plain_arith op (d x) v)); [exact T| |tauto| |intros _].
    + intros. unfold compound_d. destruct op; cells; reflexivity.
    + unfold compound_d. destruct op; cells; cbn [plain_arith]; now rewrite V.
    + unfold compound_d. destruct op; cells; cbn [plain_arith smooth_arith] in *.
      * eapply rd_eq; [exact (rd_plus _ _ _ _ (D x G1) (rd_const v))|]. cbv beta. ring.
      * eapply rd_eq; [exact (rd_minus _ _ _ _ (D x G1) (rd_const v))|]. cbv beta. ring.
      * eapply rd_eq; [exact (rd_mult _ _ _ _ (D x G1) (rd_const v))|]. cbv beta. ring.
      * eapply rd_eq; [exact (rd_div _ _ _ _ (D x G1) (rd_const v) G2)|]. cbv beta. field. exact G2.
  - (* Comp *) destruct G as (G1 & G2 & G3).
    apply (one_object i clean _ M _ X x (fun d => plain_arith op (d x) (d a))); [exact T| |tauto| |intros _].
    + intros. unfold compound. destruct op; cells; reflexivity.
    + unfold compound. destruct op; cells; cbn [plain_arith]; now rewrite !V.
    + unfold compound. destruct op; cells; cbn [plain_arith smooth_arith] in *; rewrite <- ?V.
      * exact (rd_plus _ _ _ _ (D x G1) (D a G2)).
      * exact (rd_minus _ _ _ _ (D x G1) (D a G2)).
      * exact (rd_mult _ _ _ _ (D x G1) (D a G2)).
      * exact (rd_div _ _ _ _ (D x G1) (D a G2) G3).
  - (* PreInc *) destruct G as [G1 G2]. unfold pre_inc.
    assert (tied i clean (prim M x (M x 0%nat + d)) (fun u => put (X u) x (X u x + d))) as T1.
    { apply (one_object i clean _ M _ X x (fun e => e x + d)); [exact T| |tauto| |intros _].
      - intros. cells. reflexivity.
      - cells. now rewrite V.
      - cells. eapply rd_eq; [exact (rd_plus _ _ _ _ (D x G1) (rd_const d))|]. cbv beta. ring. }
    set (M1 := prim M x (M x 0%nat + d)) in *.
    pose proof T1 as [V1 D1].
    assert (tied i (fun o => clean o \/ o = t) (ctor_copy nd M1 t x) (fun u => put (put (X u) x (X u x + d)) t (put (X u) x (X u x + d) x))) as T2.
    { apply (one_object i clean _ M1 _ (fun u => put (X u) x (X u x + d)) t (fun e => e x)); [exact T1| |tauto| |intros _].
      - intros. cells. reflexivity.
      - cells. apply V1.
      - cells. now apply D1. }
    destruct T2 as [P Q]. split.
    + intros o. rewrite <- P. now rewrite put_at.
    + intros o O. eapply rd_ext; [|apply Q, O]. intros u. cbv beta. now rewrite put_at.
  - (* PostInc *) destruct G as [G1 G2]. unfold post_inc.
    split.
    + intros o. destruct (Nat.eq_dec o t) as [->|N].
      * rewrite put_at. cells. apply V.
      * rewrite put_o by assumption. destruct (Nat.eq_dec o x) as [->|N'].
        -- rewrite put_at. cells. now rewrite V.
        -- rewrite put_o by assumption. cells. apply V.
    + intros o O. destruct (Nat.eq_dec o t) as [->|N].
      * eapply rd_ext; [|cells; exact (D x G1)]. intros u. cbv beta. now rewrite put_at.
      * destruct O as [O|O]; [|contradiction]. destruct (Nat.eq_dec o x) as [->|N'].
        -- eapply rd_ext with (h := fun u => X u x + d); [intros u; cbv beta; now rewrite put_o, put_at|].
           cells. eapply rd_eq; [exact (rd_plus _ _ _ _ (D x G1) (rd_const d))|]. cbv beta. ring.
        -- eapply rd_ext with (h := fun u => X u o); [intros u; cbv beta; now rewrite !put_o|].
           cells. now apply D.
  - (* CondAssign *) destruct G as (G1 & G2 & G3 & G4). unfold assign. rewrite <- V.
    apply (one_object i clean _ M _ X x (fun d => if Rlt_dec 0 (d c) then d a else d b)); [exact T| |tauto| |intros _].
    + intros. destruct (Rlt_dec 0 (X 0 c)); cells; reflexivity.
    + destruct (Rlt_dec 0 (X 0 c)); cells; apply V.
    + destruct (Rlt_dec 0 (X 0 c)) as [P|P]; cells.
      * destruct (rd_above _ _ 0 (D c G1) P) as (e & E & He). apply (rd_loc (fun u => X u a) _ _ e E); [|now apply D].
        intros u U. destruct (Rlt_dec 0 (X u c)); [reflexivity|]. now specialize (He u U).
      * destruct (rd_below _ _ 0 (D c G1) ltac:(lra)) as (e & E & He). apply (rd_loc (fun u => X u b) _ _ e E); [|now apply D].
        intros u U. specialize (He u U). destruct (Rlt_dec 0 (X u c)); [lra|reflexivity].
  - (* CondAssign1 *) destruct G as (G0 & G1 & G2 & G4). unfold assign. rewrite <- V.
    apply (one_object i clean _ M _ X x (fun d => if Rlt_dec 0 (d c) then d a else d x)); [exact T| |tauto| |intros _].
    + intros. destruct (Rlt_dec 0 (X 0 c)); cells; reflexivity.
    + destruct (Rlt_dec 0 (X 0 c)); cells; apply V.
    + destruct (Rlt_dec 0 (X 0 c)) as [P|P]; cells.
      * destruct (rd_above _ _ 0 (D c G1) P) as (e & E & He). apply (rd_loc (fun u => X u a) _ _ e E); [|now apply D].
        intros u U. destruct (Rlt_dec 0 (X u c)); [reflexivity|]. now specialize (He u U).
      * destruct (rd_below _ _ 0 (D c G1) ltac:(lra)) as (e & E & He). apply (rd_loc (fun u => X u x) _ _ e E); [|now apply D].
        intros u U. specialize (He u U). destruct (Rlt_dec 0 (X u c)); [lra|reflexivity].
  - (* CondEqAssign *) destruct G as (G1 & G2 & G3 & G4). unfold assign. rewrite <- V.
    apply (one_object i clean _ M _ X x (fun d => if Rle_dec 0 (d c) then d a else d b)); [exact T| |tauto| |intros _].
    + intros. destruct (Rle_dec 0 (X 0 c)); cells; reflexivity.
    + destruct (Rle_dec 0 (X 0 c)); cells; apply V.
    + destruct (Rle_dec 0 (X 0 c)) as [P|P]; cells.
      * destruct (rd_above _ _ 0 (D c G1) ltac:(lra)) as (e & E & He). apply (rd_loc (fun u => X u a) _ _ e E); [|now apply D].
        intros u U. specialize (He u U). destruct (Rle_dec 0 (X u c)); [reflexivity|lra].
      * destruct (rd_below _ _ 0 (D c G1) ltac:(lra)) as (e & E & He). apply (rd_loc (fun u => X u b) _ _ e E); [|now apply D].
        intros u U. specialize (He u U). destruct (Rle_dec 0 (X u c)); [lra|reflexivity].
  - (* CondEqAssign1 *) destruct G as (G0 & G1 & G2 & G4). unfold assign. rewrite <- V.
    apply (one_object i clean _ M _ X x (fun d => if Rle_dec 0 (d c) then d a else d x)); [exact T| |tauto| |intros _].
    + intros. destruct (Rle_dec 0 (X 0 c)); cells; reflexivity.
    + destruct (Rle_dec 0 (X 0 c)); cells; apply V.
    + destruct (Rle_dec 0 (X 0 c)) as [P|P]; cells.
      * destruct (rd_above _ _ 0 (D c G1) ltac:(lra)) as (e & E & He). apply (rd_loc (fun u => X u a) _ _ e E); [|now apply D].
        intros u U. specialize (He u U). destruct (Rle_dec 0 (X u c)); [reflexivity|lra].
      * destruct (rd_below _ _ 0 (D c G1) ltac:(lra)) as (e & E & He). apply (rd_loc (fun u => X u x) _ _ e E); [|now apply D].
        intros u U. specialize (He u U). destruct (Rle_dec 0 (X u c)); [lra|reflexivity].
Qed.

Lemma step_values : forall s M, legal_step s -> forall o, step nan inf nd s M o 0%nat = plain_step s (fun o => M o 0%nat) o.
Proof.
  intros s M L o.
  assert (forall t v M', M' t 0%nat = v -> (forall o, o <> t -> M' o 0%nat = M o 0%nat) -> M' o 0%nat = put (fun o => M o 0%nat) t v o) as One.
  { intros t v M' A B. destruct (Nat.eq_dec o t) as [->|N]; [now rewrite put_at|rewrite put_o by assumption; now apply B]. }
  destruct s; cbn [step plain_step legal_step] in *.
  - apply One; intros; cells; reflexivity.
  - apply One; intros; cells; reflexivity.
  - apply One; intros; cells; reflexivity.
  - apply One; intros; [now apply call1_value|now apply call1_frame].
  - destruct L. apply One; intros; [now apply call2_value|now apply call2_frame].
  - destruct L as (L1 & L2 & L3). destruct (Nat.eq_dec o t) as [->|N]; [rewrite put_at; now apply call2l_value|].
    rewrite put_o by assumption. destruct (match g with Atan2 => true | _ => false end) eqn:Eg.
    + assert (g = Atan2) as -> by (destruct g; congruence). specialize (L3 eq_refl).
      destruct (Nat.eq_dec o h) as [->|N']; [rewrite put_at; now apply call2l_helper|].
      rewrite put_o by assumption. apply call2l_frame; auto.
    + assert (g <> Atan2) as Ng by (intros ->; discriminate).
      rewrite call2l_frame; try assumption; try (intros; contradiction). destruct g; congruence.
  - destruct L as (L1 & L2 & L3). destruct (Nat.eq_dec o t) as [->|N]; [rewrite put_at; now apply call2r_value|].
    rewrite put_o by assumption. destruct (match g with Atan2 => true | _ => false end) eqn:Eg.
    + assert (g = Atan2) as -> by (destruct g; congruence). specialize (L3 eq_refl).
      destruct (Nat.eq_dec o h) as [->|N']; [rewrite put_at; now apply call2r_helper|].
      rewrite put_o by assumption. apply call2r_frame; auto.
    + assert (g <> Atan2) as Ng by (intros ->; discriminate).
      rewrite call2r_frame; try assumption; try (intros; contradiction). destruct g; congruence.
  - unfold assign_d. apply One; intros; cells; reflexivity.
  - unfold assign. apply One; intros; cells; reflexivity.
  - unfold compound_d. apply One; intros; destruct op; cells; reflexivity.
  - unfold compound. apply One; intros; destruct op; cells; reflexivity.
  - unfold pre_inc. destruct (Nat.eq_dec o t) as [->|N]; [rewrite put_at|rewrite put_o by assumption].
    + cells. reflexivity.
    + destruct (Nat.eq_dec o x) as [->|N']; [rewrite put_at|rewrite put_o by assumption]; cells; reflexivity.
  - unfold post_inc. destruct (Nat.eq_dec o t) as [->|N]; [rewrite put_at|rewrite put_o by assumption].
    + cells. reflexivity.
    + destruct (Nat.eq_dec o x) as [->|N']; [rewrite put_at|rewrite put_o by assumption]; cells; reflexivity.
  - unfold assign. apply One; intros; destruct (Rlt_dec 0 (M c 0%nat)); cells; reflexivity.
  - unfold assign. apply One; intros; destruct (Rlt_dec 0 (M c 0%nat)); cells; reflexivity.
  - unfold assign. apply One; intros; destruct (Rle_dec 0 (M c 0%nat)); cells; reflexivity.
  - unfold assign. apply One; intros; destruct (Rle_dec 0 (M c 0%nat)); cells; reflexivity.
Qed.
End Steps.
