(* C15: the reverse sweep is the transpose of the tangent sweep, over the reals.
   Proofs; the statements a user needs are in AdReverseProps.v. *)
From Coq Require Import List ZArith Bool Arith Lia Reals Lra FunctionalExtensionality FinFun.
Require Import Verif.AdModel Verif.AdRecord Verif.AdSpec Verif.AdReplay Verif.AdRestore
  Verif.AdReal Verif.AdLin.
Import ListNotations.
Set Implicit Arguments.
Unset Asymmetric Patterns.
Local Open Scope R_scope.

(* ------------------------------------------------------------------ *)
(* Several assignments whose arguments are none of their results        *)

Definition adjs (L : list (nat * list (R * nat))) (A : rmem) : rmem :=
  fold_left (fun A e => adjlin (fst e) (snd e) A) L A.
Definition scs (L : list (nat * list (R * nat))) (A : rmem) : rmem :=
  fold_left (fun A e => scatter (A (fst e)) (snd e) A) L A.
Definition tans (L : list (nat * list (R * nat))) (D : rmem) : rmem :=
  fold_left (fun D e => rupd D (fst e) (lin (snd e) D)) L D.
Definition results (L : list (nat * list (R * nat))) := map fst L.
Definition arguments (L : list (nat * list (R * nat))) :=
  flat_map (fun e => map snd (snd e)) L.

Lemma tans_cons r ts L D : tans ((r, ts) :: L) D = tans L (rupd D r (lin ts D)).
Proof. reflexivity. Qed.
Lemma adjs_cons r ts L A : adjs ((r, ts) :: L) A = adjs L (adjlin r ts A).
Proof. reflexivity. Qed.
Lemma scs_cons r ts L A : scs ((r, ts) :: L) A = scs L (scatter (A r) ts A).
Proof. reflexivity. Qed.
Ltac unc := rewrite ?tans_cons, ?adjs_cons, ?scs_cons;
  cbn [results arguments map flat_map fst snd In] in *;
  repeat match goal with
  | H : context [map fst ?L] |- _ => progress (change (map fst L) with (results L) in H)
  end; fold arguments in *.

Lemma lin_ext ts D D' : (forall k, In k (map snd ts) -> D k = D' k) -> lin ts D = lin ts D'.
Proof.
  induction ts as [|[c k] ts IH]; intros H; auto.
  change (lin ((c, k) :: ts) D) with (c * D k + lin ts D).
  change (lin ((c, k) :: ts) D') with (c * D' k + lin ts D').
  rewrite IH, (H k); cbn; auto. intros; apply H; cbn; auto.
Qed.
Lemma tans_frame L : forall D l, ~ In l (results L) -> tans L D l = D l.
Proof.
  induction L as [|[r ts] L IH]; intros D l H; auto. unc.
  rewrite IH by tauto. apply rupd_neq. intuition congruence.
Qed.
Lemma tans_upd L : forall D r v, ~ In r (results L) -> ~ In r (arguments L) ->
  tans L (rupd D r v) = rupd (tans L D) r v.
Proof.
  induction L as [|[r' ts] L IH]; intros D r v H1 H2; auto. unc.
  rewrite in_app_iff in H2.
  rewrite <- IH by tauto.
  rewrite (@lin_ext ts (rupd D r v) D).
  - f_equal. extensionality l. unfold rupd, upd.
    destruct (Nat.eqb_spec l r'), (Nat.eqb_spec l r); auto. subst. tauto.
  - intros k Hk. apply rupd_neq. intros ->. tauto.
Qed.

Definition separate (L : list (nat * list (R * nat))) : Prop :=
  NoDup (results L) /\ forall l, In l (results L) -> ~ In l (arguments L).

Lemma separate_tl e L : separate (e :: L) -> separate L.
Proof.
  intros [H1 H2]. split; [now inversion H1|].
  intros l Hl Ha. apply (H2 l); cbn; auto. rewrite in_app_iff. auto.
Qed.

Lemma adjs_dot N L : forall A D, separate L ->
  (forall l, In l (results L) \/ In l (arguments L) -> (l < N)%nat) ->
  dot N (adjs L A) D = dot N A (tans L D).
Proof.
  induction L as [|[r ts] L IH]; intros A D S B; auto. unc.
  rewrite IH; [|now apply separate_tl in S|].
  2:{ intros l Hl. apply B. rewrite in_app_iff. tauto. }
  assert (Hr : (r < N)%nat) by (apply B; auto).
  rewrite adjlin_dot; auto.
  2:{ intros t Ht. apply B. right. rewrite in_app_iff. left. now apply in_map. }
  destruct S as [S1 S2]. cbn in S1, S2. inversion S1 as [|? ? N1 N2]; subst.
  assert (Ha : ~ In r (map snd ts ++ arguments L)) by (apply S2; auto).
  rewrite in_app_iff in Ha.
  rewrite tans_upd by tauto.
  f_equal. f_equal. apply lin_ext. intros k Hk. apply tans_frame.
  intros Hc. apply (S2 k); auto. rewrite in_app_iff. auto.
Qed.

Lemma adjs_scs L : forall A A' l, separate L -> ~ In l (results L) ->
  A l = A' l -> (forall r, In r (results L) -> A r = A' r) ->
  scs L A l = adjs L A' l.
Proof.
  induction L as [|[r ts] L IH]; intros A A' l S Hl E Er; auto. unc.
  pose proof (separate_tl S) as S'. destruct S as [S1 S2]. cbn in S1, S2.
  inversion S1 as [|? ? N1 N2]; subst.
  apply IH; auto.
  - unfold adjlin. rewrite (Er r) by auto. apply scatter_agree.
    rewrite rupd_neq by intuition congruence. auto.
  - intros r' Hr'.
    assert (Ha : ~ In r' (map snd ts ++ arguments L)) by (apply S2; auto).
    rewrite in_app_iff in Ha.
    unfold adjlin. rewrite !scatter_in by tauto.
    rewrite rupd_neq by (intros ->; tauto). apply Er. auto.
Qed.
Lemma adjs_agree L : forall A A' l, A l = A' l ->
  (forall r, In r (results L) -> A r = A' r) -> adjs L A l = adjs L A' l.
Proof.
  induction L as [|[r ts] L IH]; intros A A' l E Er; auto. unc.
  apply IH.
  - apply adjlin_agree; auto.
  - intros r' Hr'. apply adjlin_agree; auto.
Qed.
Lemma adjs_zero L : forall A l, ~ In l (arguments L) -> (A l = 0 \/ In l (results L)) ->
  adjs L A l = 0.
Proof.
  induction L as [|[r ts] L IH]; intros A l Ha Hl; [cbn in *; tauto|unc].
  rewrite in_app_iff in Ha. apply IH; [tauto|].
  destruct (Nat.eq_dec l r) as [->|N].
  - left. unfold adjlin. rewrite scatter_in by tauto. apply rupd_eq.
  - destruct Hl as [Hl|[Hl|Hl]]; [left|congruence|auto].
    unfold adjlin. rewrite scatter_in by tauto. now rewrite rupd_neq.
Qed.

(* vectors *)
Definition vec_terms (res n q : nat) (f : nat -> list (R * nat)) :=
  map (fun k => (res + k, f k)%nat) (seq q n).
Lemma vec_results res n q f l :
  In l (results (vec_terms res n q f)) <-> (res + q <= l < res + q + n)%nat.
Proof.
  unfold results, vec_terms. rewrite map_map. cbn. rewrite in_map_iff. split.
  - intros (k & <- & Hk). apply in_seq in Hk. lia.
  - intros H. exists (l - res)%nat. rewrite in_seq. lia.
Qed.
Lemma vec_arguments res n q f l :
  In l (arguments (vec_terms res n q f)) <->
  exists k, (q <= k < q + n)%nat /\ In l (map snd (f k)).
Proof.
  unfold arguments, vec_terms. rewrite in_flat_map. split.
  - intros (e & He & Hl). apply in_map_iff in He as (k & <- & Hk). apply in_seq in Hk.
    cbn in Hl. eauto.
  - intros (k & Hk & Hl). exists ((res + k)%nat, f k). split; auto.
    apply in_map_iff. exists k. split; auto. apply in_seq. lia.
Qed.
Lemma vec_nodup res f : forall n q, NoDup (results (vec_terms res n q f)).
Proof.
  intros n q. unfold results, vec_terms. rewrite map_map. cbn.
  apply Injective_map_NoDup; [|apply seq_NoDup].
  intros a c H. lia.
Qed.

Definition copy_terms (arg : nat) (k : nat) : list (R * nat) := [(1, (arg + k)%nat)].
Definition axpy_terms (T : rmem) (arg a1 a2 k : nat) : list (R * nat) :=
  [(1, (a2 + k)%nat); (T arg, (a1 + k)%nat); (T (a1 + k)%nat, arg)].

Lemma tcopy_tans n : forall arg res q (D : rmem),
  @tcopy reals n arg res q D = tans (vec_terms res n q (copy_terms arg)) D.
Proof.
  induction n; intros arg res q D; auto. cbn [tcopy].
  rewrite IHn. unfold vec_terms. cbn [seq map]. rewrite tans_cons.
  apply f_equal. extensionality l. unfold rupd, upd, copy_terms, lin. cbn. dec_eq; try ring; auto.
Qed.
Lemma rcopy_adjs n : forall arg res q T (A : rmem) k,
  (arg + n <= res \/ res + n <= arg)%nat ->
  snd (fst (@rcopy reals n arg res q T A k)) = adjs (vec_terms res n q (copy_terms arg)) A.
Proof.
  induction n; intros arg res q T A k H; auto. cbn [rcopy].
  destruct (@restore reals (res + q) T k) as [T' k'].
  rewrite IHn by lia. unfold vec_terms. cbn [seq map]. rewrite adjs_cons.
  apply f_equal. extensionality l. unfold adjlin, scatter, copy_terms. cbn [fold_left fst snd].
  unfold rupd, upd. cbn [reals add zero V]. dec_eq; try ring; lia.
Qed.

Lemma taxpy_tans n : forall arg a1 a2 res q (T0 T D : rmem), (res <= arg < res + q + n -> False)%nat ->
  (forall k, (k < n)%nat -> ~ (res <= a1 + q + k < res + q + n))%nat ->
  T arg = T0 arg -> (forall k, (k < n)%nat -> T (a1 + q + k) = T0 (a1 + q + k))%nat ->
  @taxpy reals n arg a1 a2 res q T D =
  tans (vec_terms res n q (axpy_terms T0 arg a1 a2)) D.
Proof.
  induction n; intros arg a1 a2 res q T0 T D H0 H1 E0 E1; auto. cbn [taxpy].
  rewrite (IHn _ _ _ _ _ T0).
  - unfold vec_terms. cbn [seq map]. rewrite tans_cons. apply f_equal.
    pose proof (E1 O ltac:(lia)) as E. rewrite Nat.add_0_r in E. rewrite E, E0.
    extensionality l. unfold rupd, upd, axpy_terms, lin. cbn. dec_eq; try ring; auto.
  - lia.
  - intros k Hk. specialize (H1 (S k)). lia.
  - rewrite upd_neq; auto. lia.
  - intros k Hk. rewrite upd_neq.
    + specialize (E1 (S k)). replace (a1 + S q + k)%nat with (a1 + q + S k)%nat by lia.
      apply E1. lia.
    + specialize (H1 (S k)). lia.
Qed.
Lemma raxpy_scs n : forall arg a1 a2 res q (T0 T A : rmem) k, (res <= arg < res + q + n -> False)%nat ->
  (forall k, (k < n)%nat -> ~ (res <= a1 + q + k < res + q + n))%nat ->
  (forall k, (k < n)%nat -> ~ (res <= a2 + q + k < res + q + n))%nat ->
  T arg = T0 arg -> (forall k, (k < n)%nat -> T (a1 + q + k) = T0 (a1 + q + k))%nat ->
  snd (fst (@raxpy reals n arg a1 a2 res q T A k)) =
  scs (vec_terms res n q (axpy_terms T0 arg a1 a2)) A.
Proof.
  induction n; intros arg a1 a2 res q T0 T A k H0 H1 H2 E0 E1; auto. cbn [raxpy].
  destruct (@restore reals (res + q) T k) as [T' k'] eqn:Er.
  assert (Et : forall l, l <> (res + q)%nat -> T' l = T l).
  { intros l Hl. unfold restore in Er. destruct (pop reals k). injection Er as <- _.
    now apply upd_neq. }
  rewrite (IHn _ _ _ _ _ T0).
  - unfold vec_terms. cbn [seq map]. rewrite scs_cons. apply f_equal.
    pose proof (E1 O ltac:(lia)) as E. pose proof (H1 O ltac:(lia)) as G1.
    pose proof (H2 O ltac:(lia)) as G2.
    rewrite Nat.add_0_r in E, G1, G2. rewrite E, E0.
    extensionality l. unfold scatter, axpy_terms. cbn [fold_left fst snd].
    unfold rupd, upd. cbn [reals add mul V]. dec_eq; try ring; lia.
  - lia.
  - intros j Hj. specialize (H1 (S j)). lia.
  - intros j Hj. specialize (H2 (S j)). lia.
  - rewrite Et; auto. lia.
  - intros j Hj. rewrite Et.
    + specialize (E1 (S j)). replace (a1 + S q + j)%nat with (a1 + q + S j)%nat by lia.
      apply E1. lia.
    + specialize (H1 (S j)). lia.
Qed.

(* vec_dot *)
Definition dot_terms (T : rmem) (a1 a2 q : nat) : list (R * nat) :=
  [(T (a1 + q)%nat, (a2 + q)%nat); (T (a2 + q)%nat, (a1 + q)%nat)].
Lemma lin_app ts1 ts2 D : lin (ts1 ++ ts2) D = lin ts1 D + lin ts2 D.
Proof.
  induction ts1 as [|[c k] ts IH]; [change (lin [] D) with 0; cbn [app]; ring|].
  change (lin (((c, k) :: ts) ++ ts2) D) with (c * D k + lin (ts ++ ts2) D).
  change (lin ((c, k) :: ts) D) with (c * D k + lin ts D). rewrite IH. ring.
Qed.
Lemma tdot_lin n : forall a1 a2 res q (T0 T D : rmem),
  (forall k, (q <= k < q + n)%nat -> (a1 + k <> res /\ a2 + k <> res)%nat) ->
  (forall l, l <> res -> T l = T0 l) ->
  @tdot reals n a1 a2 res q T D =
  rupd D res (D res + lin (flat_map (dot_terms T0 a1 a2) (seq q n)) D).
Proof.
  induction n; intros a1 a2 res q T0 T D H E.
  - cbn. extensionality l. unfold rupd, upd. cbn. dec_eq; try ring; auto.
  - cbn [tdot]. rewrite (IHn _ _ _ _ T0).
    + cbn [seq flat_map]. rewrite lin_app.
      pose proof (H q ltac:(lia)) as [G1 G2].
      match goal with |- rupd (upd _ _ ?v) _ (_ + lin ?l _) = _ =>
        replace (lin l (@upd reals D res v)) with (lin l D) end.
      * extensionality l. unfold rupd, upd. dec_eq.
        rewrite !E by auto. cbn. ring.
      * apply lin_ext. intros k Hk. apply in_map_iff in Hk as (e & <- & He).
        apply in_flat_map in He as (j & Hj & He). apply in_seq in Hj.
        pose proof (H j ltac:(lia)) as [J1 J2].
        cbn in He. symmetry. apply rupd_neq. destruct He as [<-|[<-|[]]]; cbn; auto.
    + intros k Hk. apply H. lia.
    + intros l Hl. rewrite upd_neq by auto. auto.
Qed.
Lemma rdot_scatter n : forall a1 a2 res q (T0 T A : rmem),
  (forall k, (q <= k < q + n)%nat -> (a1 + k <> res /\ a2 + k <> res)%nat) ->
  (forall k, (q <= k < q + n)%nat -> (T (a1 + k) = T0 (a1 + k) /\ T (a2 + k) = T0 (a2 + k))%nat) ->
  @rdot reals n a1 a2 res q T A =
  scatter (A res) (flat_map (dot_terms T0 a1 a2) (seq q n)) A.
Proof.
  induction n; intros a1 a2 res q T0 T A H E; auto. cbn [rdot].
  rewrite (IHn _ _ _ _ T0).
  - pose proof (H q ltac:(lia)) as [G1 G2]. pose proof (E q ltac:(lia)) as [E1 E2].
    cbn [seq flat_map]. unfold scatter at 2. rewrite fold_left_app. fold (scatter (A res)).
    cbn [dot_terms fold_left fst snd]. rewrite E1, E2.
    assert (Er : forall v w, @upd reals (@upd reals A (a2 + q) v) (a1 + q) w res = A res).
    { intros v w. rewrite !upd_neq by auto. auto. }
    rewrite Er. unfold scatter. f_equal. extensionality l.
    unfold rupd, upd. cbn [reals add mul V]. dec_eq; try ring; lia.
  - intros k Hk. apply H. lia.
  - intros k Hk. apply E. lia.
Qed.

Lemma tzero_val n : forall res (D : rmem) l,
  @tzero reals n res D l = if sin l (seq res n) then 0 else D l.
Proof.
  induction n; intros res D l; auto. cbn [tzero seq].
  rewrite IHn. cbn [sin existsb]. fold (sin l (seq (S res) n)).
  destruct (sin l (seq (S res) n)) eqn:E.
  - now rewrite orb_true_r.
  - rewrite orb_false_r. unfold upd. cbn. destruct (l =? res)%nat; auto.
Qed.

(* ------------------------------------------------------------------ *)
(* One operation                                                        *)

Lemma below_iff N s : below N s = true <-> forall l, In l s -> (l < N)%nat.
Proof.
  unfold below. rewrite forallb_forall. split; intros H l Hl.
  - apply Nat.ltb_lt. auto.
  - apply Nat.ltb_lt. auto.
Qed.

Lemma lin_case N res ts args (A Ar D Dn Rn : rmem) s :
  (res < N)%nat -> (forall k, In k args -> (k < N)%nat) ->
  (forall k, In k (map snd ts) -> In k args) ->
  dirt s res = false ->
  (forall l, dirt s l = false -> Ar l = A l) ->
  (forall l, used s l = false -> A l = 0) ->
  (forall l, A l * Dn l = A l * rupd D res (lin ts D) l) ->
  (forall l, Rn l = adjlin res ts Ar l) ->
  exists A', (forall l, dirt s l = false -> Rn l = A' l) /\
    (forall l, upd_used (used s) res args l = false -> A' l = 0) /\
    dot N A' D = dot N A Dn.
Proof.
  intros Hr Ha Hs Dr Ag Uz Hd Hrn. exists (adjlin res ts A). split; [|split].
  - intros l Hl. rewrite Hrn. apply adjlin_agree; auto.
  - apply adjlin_used; auto.
  - rewrite adjlin_dot; auto.
    + apply dot_ext. intros l _. now rewrite Hd.
    + intros t Ht. apply Ha, Hs. now apply in_map.
Qed.

Ltac bools := repeat match goal with
  | H : (_ && _)%bool = true |- _ => apply andb_prop in H; destruct H
  | H : negb _ = true |- _ => apply negb_true_iff in H
  | H : (_ =? _)%nat = false |- _ => apply Nat.eqb_neq in H
  | H : below _ _ = true |- _ => rewrite below_iff in H
  | H : none_in _ _ = true |- _ => rewrite none_in_iff in H
  end.

Lemma not_dep_ind_cases (b : bop reals) :
  is_ind b = true \/ (exists r, b = AssignDep reals r) \/
  (is_ind b = false /\ forall T, out_of b T = []).
Proof. destruct b; cbn; auto. right; left; eauto. Qed.

Lemma apart_iff a n c m : apartb a n c m = true <-> (a + n <= c \/ c + m <= a)%nat.
Proof. unfold apartb. rewrite orb_true_iff, !Nat.leb_le. reflexivity. Qed.

Lemma aback_ok N (b : bop reals) ps x xd i (T D Tr Ar A : rmem) pk k bad s s' :
  is_ind b = false -> (forall T, out_of b T = []) ->
  regular b T (zval ps x i b T) -> okop b -> keeps b T pk ->
  (forall l, bad l = false -> Tr l = zval ps x i b T l) ->
  aback N b bad s = Some s' ->
  (forall l, dirt s l = false -> Ar l = A l) ->
  (forall l, used s l = false -> A l = 0) ->
  exists A' : rmem,
    (forall l, dirt s' l = false -> snd (fst (rval b Tr Ar (rev pk ++ k))) l = A' l) /\
    (forall l, used s' l = false -> A' l = 0) /\
    dot N A' D = dot N A (tval ps x xd i b T D).
Proof.
  intros NI NO G Ok Kp Hv Hb Ag Uz.
  assert (SH : forall res args na nb ok, shape b = Some (res, args, na, nb, ok) ->
    (if ok && below N (res :: args) && none_in (dirt s) [res]
        && none_in bad na && none_in (sdel bad [res]) nb
     then Some (mkS (dirt s) (upd_used (used s) res args)) else None) = Some s' ->
    exists A' : rmem,
    (forall l, dirt s' l = false -> snd (fst (rval b Tr Ar (rev pk ++ k))) l = A' l) /\
    (forall l, used s' l = false -> A' l = 0) /\
    dot N A' D = dot N A (tval ps x xd i b T D)).
  { clear Hb. intros res args na nb ok Sh Hb.
    destruct (ok && below N (res :: args) && none_in (dirt s) [res]
        && none_in bad na && none_in (sdel bad [res]) nb)%bool eqn:C; [|discriminate].
    injection Hb as <-. cbn [dirt used].
    apply andb_prop in C as [C C5]. apply andb_prop in C as [C C4].
    apply andb_prop in C as [C C3]. apply andb_prop in C as [C1 C2]. bools. subst ok.
    destruct (shape_writes b Sh) as [Hw Hp].
    assert (pk = [T res]) as ->.
    { rewrite <- Hp. destruct b; try discriminate Sh; exact Kp. }
    destruct (shape_deriv b T (zval ps x i b T) Sh) as (ts & Dt & Sub).
    eapply lin_case with (ts := ts); eauto.
    - apply C2; cbn; auto.
    - intros; apply C2; cbn; auto.
    - apply C3; cbn; auto.
    - intros l. f_equal. eapply tval_lin; eauto.
    - intros l. cbn [rev app]. eapply rval_adj; eauto.
      intros l0 Hl. destruct (Nat.eq_dec l0 res) as [->|Ne]; [apply rupd_eq|].
      rewrite rupd_neq by auto. specialize (C5 l0 Hl). apply sdel_false in C5.
      destruct C5 as [[C5|[]]|C5]; [congruence|]. rewrite Hv by auto.
      apply (@zval_frame reals). rewrite Hw. cbn. intuition congruence. }
  assert (ZC : forall res,
    (if below N [res] then Some (mkS (sdel (dirt s) [res]) (sdel (used s) [res])) else None)
      = Some s' ->
    (forall l, snd (fst (rval b Tr Ar (rev pk ++ k))) l = rupd Ar res 0 l) ->
    (forall l, tval ps x xd i b T D l = rupd D res 0 l) ->
    exists A' : rmem,
    (forall l, dirt s' l = false -> snd (fst (rval b Tr Ar (rev pk ++ k))) l = A' l) /\
    (forall l, used s' l = false -> A' l = 0) /\
    dot N A' D = dot N A (tval ps x xd i b T D)).
  { clear Hb SH. intros res Hb Hr Ht.
    destruct (below N [res]) eqn:B; [|discriminate]. injection Hb as <-. bools.
    exists (rupd A res 0). cbn [dirt used]. split; [|split].
    + intros l Hl. rewrite Hr. apply sdel_false in Hl. unfold rupd, upd.
      destruct (Nat.eqb_spec l res); auto.
      apply Ag. cbn in Hl. intuition congruence.
    + intros l Hl. apply sdel_false in Hl. unfold rupd, upd. destruct (Nat.eqb_spec l res); auto.
      apply Uz. cbn in Hl. intuition congruence.
    + apply dot_ext. intros l _. rewrite Ht. unfold rupd, upd.
      destruct (Nat.eqb_spec l res); ring. }
  assert (SC : Some s = Some s' ->
    (forall l, snd (fst (rval b Tr Ar (rev pk ++ k))) l = Ar l) ->
    (forall l, tval ps x xd i b T D l = D l) ->
    exists A' : rmem,
    (forall l, dirt s' l = false -> snd (fst (rval b Tr Ar (rev pk ++ k))) l = A' l) /\
    (forall l, used s' l = false -> A' l = 0) /\
    dot N A' D = dot N A (tval ps x xd i b T D)).
  { clear Hb SH ZC. intros Hb Hr Ht. injection Hb as <-. exists A. split; [|split]; auto.
    - intros l Hl. rewrite Hr. auto.
    - apply dot_ext. intros l _. now rewrite Ht. }
  destruct b; try discriminate NI; try (specialize (NO (fun _ => 0)); discriminate NO);
    try (unfold aback in Hb; eapply SH; [reflexivity|]; exact Hb);
    clear SH; cbn [aback] in Hb.
  - (* cmp *) injection Hb as <-. exists A. cbn. auto.
  - (* assign_d *) cbn [keeps pushes] in Kp; subst pk; eapply ZC; [exact Hb|reflexivity|reflexivity].
  - cbn [keeps pushes] in Kp; subst pk; eapply ZC; [exact Hb|reflexivity|reflexivity].
  - cbn [keeps pushes] in Kp; subst pk; eapply ZC; [exact Hb|reflexivity|reflexivity].
  - cbn [keeps pushes] in Kp; subst pk; eapply ZC; [exact Hb|reflexivity|reflexivity].
  - (* eq_plus_d *) cbn [keeps pushes] in Kp; subst pk; eapply SC; [exact Hb|reflexivity|reflexivity].
  - cbn [keeps pushes] in Kp; subst pk; eapply SC; [exact Hb|reflexivity|reflexivity].
  - cbn [keeps pushes] in Kp; subst pk; eapply SC; [exact Hb|reflexivity|reflexivity].
  - cbn [keeps pushes] in Kp; subst pk; eapply SC; [exact Hb|reflexivity|reflexivity].
  - (* eq_plus_prod *)
    match type of Hb with (if ?c then _ else _) = _ => destruct c eqn:C; [|discriminate] end.
    injection Hb as <-. cbn [dirt used].
    apply andb_prop in C as [C C5]. apply andb_prop in C as [C C4].
    apply andb_prop in C as [C C3]. apply andb_prop in C as [C1 C2]. bools.
    assert (E1 : Tr a1 = T a1).
    { rewrite Hv by (apply C3; cbn; auto). apply (@zval_frame reals). cbn. intuition congruence. }
    assert (E2 : Tr a2 = T a2).
    { rewrite Hv by (apply C3; cbn; auto). apply (@zval_frame reals). cbn. intuition congruence. }
    eapply lin_case with (ts := [(1, res); (T a2, a1); (T a1, a2)]); eauto.
    + apply C1; cbn; auto.
    + intros k0 Hk. apply C1. cbn in *; tauto.
    + apply C2; cbn; auto.
    + intros l. f_equal. cbn [tval]. apply upd_val. cbn. ring.
    + intros l. cbn [keeps pushes] in Kp. subst pk. cbn [rval fst snd rev app].
      unfold adjlin, scatter. cbn [fold_left fst snd]. unfold rupd.
      unfold upd. cbn. rewrite E1, E2. dec_eq; rewrite ?E1, ?E2; ring.
  - (* eq_min_prod *)
    match type of Hb with (if ?c then _ else _) = _ => destruct c eqn:C; [|discriminate] end.
    injection Hb as <-. cbn [dirt used].
    apply andb_prop in C as [C C5]. apply andb_prop in C as [C C4].
    apply andb_prop in C as [C C3]. apply andb_prop in C as [C1 C2]. bools.
    assert (E1 : Tr a1 = T a1).
    { rewrite Hv by (apply C3; cbn; auto). apply (@zval_frame reals). cbn. intuition congruence. }
    assert (E2 : Tr a2 = T a2).
    { rewrite Hv by (apply C3; cbn; auto). apply (@zval_frame reals). cbn. intuition congruence. }
    eapply lin_case with (ts := [(1, res); (- T a2, a1); (- T a1, a2)]); eauto.
    + apply C1; cbn; auto.
    + intros k0 Hk. apply C1. cbn in *; tauto.
    + apply C2; cbn; auto.
    + intros l. f_equal. cbn [tval]. apply upd_val. cbn. ring.
    + intros l. cbn [keeps pushes] in Kp. subst pk. cbn [rval fst snd rev app].
      unfold adjlin, scatter. cbn [fold_left fst snd]. unfold rupd.
      unfold upd. cbn. rewrite E1, E2. dec_eq; rewrite ?E1, ?E2; ring.
  - (* sin *)
    match type of Hb with (if ?c then _ else _) = _ => destruct c eqn:C; [|discriminate] end.
    injection Hb as <-. cbn [dirt used].
    apply andb_prop in C as [C C6]. apply andb_prop in C as [C C5].
    apply andb_prop in C as [C C4].
    apply andb_prop in C as [C C3]. apply andb_prop in C as [C1 C2]. bools.
    assert (E2 : Tr a2 = zval ps x i (SinOp reals a1 a2 res) T a2) by (apply Hv, C3; cbn; auto).
    set (T' := zval ps x i (SinOp reals a1 a2 res) T) in *.
    eapply lin_case with (ts := [(T' a2, a1)]); eauto.
    + apply C1; cbn; auto.
    + intros k0 Hk. apply C1. cbn in *; tauto.
    + apply C2; cbn; auto.
    + intros l. cbn [tval]. fold T'. unfold rupd. cbn [fold_right lin fst snd].
      destruct (Nat.eq_dec l a2) as [->|Ne].
      * rewrite (Uz a2); [ring|]. apply C4; cbn; auto.
      * f_equal. unfold upd. cbn. dec_eq; try ring.
    + intros l. cbn [keeps pushes] in Kp. subst pk. cbn [rval rev app].
      unfold restore, pop. cbn [fst snd]. unfold adj1. rewrite E2.
      unfold adjlin, scatter. cbn [fold_left fst snd]. unfold rupd.
      unfold upd. cbn. dec_eq; ring.
  - (* cos *)
    match type of Hb with (if ?c then _ else _) = _ => destruct c eqn:C; [|discriminate] end.
    injection Hb as <-. cbn [dirt used].
    apply andb_prop in C as [C C6]. apply andb_prop in C as [C C5].
    apply andb_prop in C as [C C4].
    apply andb_prop in C as [C C3]. apply andb_prop in C as [C1 C2]. bools.
    assert (E2 : Tr a2 = zval ps x i (CosOp reals a1 a2 res) T a2) by (apply Hv, C3; cbn; auto).
    set (T' := zval ps x i (CosOp reals a1 a2 res) T) in *.
    eapply lin_case with (ts := [(- T' a2, a1)]); eauto.
    + apply C1; cbn; auto.
    + intros k0 Hk. apply C1. cbn in *; tauto.
    + apply C2; cbn; auto.
    + intros l. cbn [tval]. fold T'. unfold rupd. cbn [fold_right lin fst snd].
      destruct (Nat.eq_dec l a2) as [->|Ne].
      * rewrite (Uz a2); [ring|]. apply C4; cbn; auto.
      * f_equal. unfold upd. cbn. dec_eq; try ring.
    + intros l. cbn [keeps pushes] in Kp. subst pk. cbn [rval rev app].
      unfold restore, pop. cbn [fst snd]. unfold adj1. rewrite E2.
      unfold adjlin, scatter. cbn [fold_left fst snd]. unfold rupd.
      unfold upd. cbn. dec_eq; ring.
  - (* ceil *) cbn [keeps pushes] in Kp; subst pk; eapply ZC; [exact Hb|reflexivity|reflexivity].
  - cbn [keeps pushes] in Kp; subst pk; eapply ZC; [exact Hb|reflexivity|reflexivity].
  - (* SetRef *) cbn [keeps pushes] in Kp; subst pk; eapply SC; [exact Hb|reflexivity|reflexivity].
  - (* vec_copy *)
    match type of Hb with (if ?c then _ else _) = _ => destruct c eqn:C; [|discriminate] end.
    injection Hb as <-. cbn [dirt used].
    apply andb_prop in C as [C C3]. apply andb_prop in C as [C1 C2]. bools.
    rewrite apart_iff in C2.
    set (L := vec_terms res size 0 (copy_terms arg)).
    assert (Sp : separate L).
    { split; [apply vec_nodup|]. intros l. unfold L. rewrite vec_results, vec_arguments.
      intros Hl (q & Hq & Hi). cbn in Hi. lia. }
    assert (Rs : forall l, In l (results L) <-> In l (seq res size)).
    { intros l. unfold L. rewrite vec_results, in_seq. lia. }
    assert (As : forall l, In l (arguments L) -> In l (seq arg size)).
    { intros l. unfold L. rewrite vec_arguments, in_seq. intros (q & Hq & Hi). cbn in Hi. lia. }
    exists (adjs L A). split; [|split].
    + intros l Hl. cbn [rval]. rewrite rcopy_adjs by lia. fold L. apply adjs_agree; auto.
      intros r Hr. apply Ag, C3. now apply Rs.
    + intros l Hl. apply sadd_false in Hl as [Hl Hu]. apply sdel_false in Hu.
      apply adjs_zero; auto. rewrite Rs. intuition.
    + rewrite adjs_dot; auto.
      * cbn [tval]. rewrite tcopy_tans. reflexivity.
      * intros l Hl. apply C1. apply in_or_app. rewrite <- Rs. intuition.
  - (* vec_dot *)
    match type of Hb with (if ?c then _ else _) = _ => destruct c eqn:C; [|discriminate] end.
    injection Hb as <-. cbn [dirt used].
    apply andb_prop in C as [C C4].
    apply andb_prop in C as [C C3]. apply andb_prop in C as [C1 C2]. bools.
    apply sin_false in C4. rewrite in_app_iff, !in_seq in C4.
    set (ts := flat_map (dot_terms T a1 a2) (seq 0 size)).
    assert (Hts : forall l, In l (map snd ts) -> In l (seq a1 size ++ seq a2 size)).
    { intros l Hl. apply in_map_iff in Hl as (e & <- & He).
      apply in_flat_map in He as (q & Hq & He). apply in_seq in Hq.
      rewrite in_app_iff, !in_seq. cbn in He. destruct He as [<-|[<-|[]]]; cbn; lia. }
    cbn [keeps pushes] in Kp. subst pk.
    exists (adjlin res ts A). split; [|split].
    + intros l Hl. apply sadd_false in Hl as [Hl Hd]. cbn [rval rev app].
      unfold restore, pop. cbn [fst snd].
      rewrite (@rdot_scatter size a1 a2 res 0 T Tr Ar).
      * fold ts. unfold adjlin. rewrite (Ag res) by (apply C2; cbn; auto).
        apply scatter_agree. rewrite rupd_neq by (cbn in Hl; intuition congruence). auto.
      * intros q Hq. lia.
      * intros q Hq. rewrite !Hv by (apply C3; rewrite in_app_iff, !in_seq; lia).
        rewrite !(@zval_frame reals) by (cbn; lia). auto.
    + apply adjlin_used; auto.
    + rewrite adjlin_dot.
      * cbn [tval]. rewrite (@tdot_lin size a1 a2 res 0 T).
        -- fold ts. apply dot_ext. intros l _. f_equal.
           change (@upd reals D res (zero reals)) with (rupd D res 0).
           rewrite (@lin_ext ts (rupd D res 0) D).
           ++ unfold rupd, upd. cbn. dec_eq. ring.
           ++ intros q Hq. apply Hts in Hq. rewrite in_app_iff, !in_seq in Hq.
              apply rupd_neq. lia.
        -- intros q Hq. lia.
        -- intros l Hl. now apply (@upd_neq reals).
      * apply C1; cbn; auto.
      * intros t Ht. apply C1. cbn. right. apply Hts. now apply in_map.
  - (* vec_axpy *)
    match type of Hb with (if ?c then _ else _) = _ => destruct c eqn:C; [|discriminate] end.
    injection Hb as <-. cbn [dirt used].
    apply andb_prop in C as [C C6]. apply andb_prop in C as [C C5].
    apply andb_prop in C as [C C4].
    apply andb_prop in C as [C C3]. apply andb_prop in C as [C1 C2]. bools.
    rewrite apart_iff in C2, C3, C4.
    set (L := vec_terms res size 0 (axpy_terms T arg a1 a2)).
    assert (As : forall l, In l (arguments L) -> In l (arg :: seq a1 size ++ seq a2 size)).
    { intros l. unfold L. rewrite vec_arguments. cbn [In]. rewrite in_app_iff, !in_seq.
      intros (q & Hq & Hi). cbn in Hi. lia. }
    assert (Sp : separate L).
    { split; [apply vec_nodup|]. intros l Hl Ha. apply As in Ha. unfold L in Hl.
      rewrite vec_results in Hl. cbn [In] in Ha. rewrite in_app_iff, !in_seq in Ha. lia. }
    assert (Rs : forall l, In l (results L) <-> In l (seq res size)).
    { intros l. unfold L. rewrite vec_results, in_seq. lia. }
    assert (Tv : forall l, In l (arg :: seq a1 size) -> Tr l = T l).
    { intros l Hl. rewrite Hv by (apply C6; auto). apply (@zval_frame reals).
      cbn [bwrites]. cbn [In] in Hl. rewrite in_seq in *. lia. }
    exists (adjs L A). split; [|split].
    + intros l Hl. apply sadd_false in Hl as [Hl Hd]. cbn [rval].
      rewrite (@raxpy_scs size arg a1 a2 res 0 T); try lia.
      * fold L. apply adjs_scs; auto.
        -- now rewrite Rs.
        -- intros r Hr. apply Ag, C5. now apply Rs.
      * apply Tv. cbn; auto.
      * intros q Hq. apply Tv. cbn. rewrite in_seq. lia.
    + intros l Hl. apply sadd_false in Hl as [Hl Hu]. apply sdel_false in Hu.
      apply adjs_zero; auto. rewrite Rs. intuition.
    + rewrite adjs_dot; auto.
      * cbn [tval]. rewrite (@taxpy_tans size arg a1 a2 res 0 T T); auto; lia.
      * intros l Hl. apply C1. cbn. rewrite !in_app_iff.
        destruct Hl as [Hl|Hl]; [apply Rs in Hl; auto|].
        apply As in Hl. cbn in Hl. rewrite in_app_iff in Hl. tauto.
  - (* take_stock *)
    destruct (below N (seq res size)) eqn:C; [|discriminate].
    injection Hb as <-. cbn [dirt used].
    exists (fun l => if sin l (seq res size) then 0 else A l). split; [|split].
    + intros l Hl. apply sdel_false in Hl. cbn [rval fst snd]. rewrite tzero_val.
      destruct (sin l (seq res size)) eqn:E; auto.
      apply sin_false in E. apply Ag. tauto.
    + intros l Hl. apply sdel_false in Hl.
      destruct (sin l (seq res size)) eqn:E; auto.
      apply sin_false in E. apply Uz. tauto.
    + apply dot_ext. intros l _. cbn [tval]. rewrite tzero_val.
      destruct (sin l (seq res size)); ring.
  - (* death_not *)
    destruct (none_in (used s) (seq a1 (S a2 - a1))) eqn:C; [|discriminate].
    injection Hb as <-. bools. exists A. split; [|split]; auto.
    intros l Hl. apply sdel_false in Hl. cbn [rval].
    destruct (@restore_up reals (S a2 - a1) a1 Tr (rev pk ++ k)) as [T1 k1]. cbn [fst snd].
    rewrite tzero_val. destruct (sin l (seq a1 (S a2 - a1))) eqn:E.
    + apply sin_iff in E. symmetry. apply Uz. auto.
    + apply sin_false in E. apply Ag. tauto.
Qed.

(* ------------------------------------------------------------------ *)
(* The whole trace                                                      *)

Fixpoint aguard (N : nat) (ps x : nat -> R) (t : list (op reals)) (i : nat) (T : rmem)
  : option sets :=
  match t with
  | [] => Some (mkS (fun _ => true) (fun _ => false))
  | o :: t' =>
      let b := @resolve reals T o in
      let i' := if is_ind b then S i else i in
      let T' := @zval reals ps x i b T in
      match aguard N ps x t' i' T' with
      | Some s => aback N b (@badset reals true ps x t' i' T') s
      | None => None
      end
  end.

Fixpoint regular_run (ps x : nat -> R) (t : list (op reals)) (i : nat) (T : rmem) : Prop :=
  match t with
  | [] => True
  | o :: t' =>
      let b := @resolve reals T o in
      let T' := @zval reals ps x i b T in
      regular b T T' /\ regular_run ps x t' (if is_ind b then S i else i) T'
  end.

(* tangents of the dependents *)
Fixpoint touts (ps x xd : nat -> R) (t : list (op reals)) (i : nat) (T D : rmem) : list R :=
  match t with
  | [] => []
  | o :: t' =>
      let b := @resolve reals T o in
      tout_of b D ++ touts ps x xd t' (if is_ind b then S i else i)
                       (@zval reals ps x i b T) (@tval reals ps x xd i b T D)
  end.

Fixpoint wsum (u : nat -> R) (j : nat) (ys : list R) : R :=
  match ys with [] => 0 | y :: ys' => u j * y + wsum u (S j) ys' end.
Fixpoint isum (z xd : nat -> R) (i n : nat) : R :=
  match n with O => 0 | S n' => z i * xd i + isum z xd (S i) n' end.

Lemma isum_ext z z' xd n : forall i, (forall k, (i <= k)%nat -> z k = z' k) ->
  isum z xd i n = isum z' xd i n.
Proof.
  induction n; intros i H; cbn; auto. rewrite H by lia. rewrite IHn; auto.
  intros; apply H; lia.
Qed.

Lemma vpath_vi ps x t : forall (s s' : vst reals), vpath ps x t s s' -> (vi s <= vi s')%nat.
Proof.
  induction t; intros s s' P; inversion P; subst; auto.
  apply IHt in H4. cbn in H4. destruct (is_ind _); lia.
Qed.

Lemma reals_exact : true = true -> forall a c : V reals,
  sub reals (add reals a c) c = a /\ add reals (sub reals a c) c = a.
Proof. intros _ a c. cbn in *. split; ring. Qed.

Lemma rstep_other u o (r : rstate reals) : is_ind (resolve (rT r) o) = false ->
  (forall T, out_of (resolve (rT r) o) T = []) ->
  rA (rstep u o r) = snd (fst (rval (resolve (rT r) o) (rT r) (rA r) (rk r))) /\
  rz (rstep u o r) = rz r.
Proof.
  intros H1 H2. unfold rstep.
  destruct (rval (resolve (rT r) o) (rT r) (rA r) (rk r)) as [[T1 A1] k1].
  destruct (resolve (rT r) o); cbn; auto.
  - discriminate H1.
  - specialize (H2 (fun _ => 0)). discriminate H2.
Qed.

Lemma rrun_cons u o t (m : rstate reals) : rrun u (o :: t) m = rstep u o (rrun u t m).
Proof. unfold rrun. cbn [rev]. now rewrite fold_left_app. Qed.

Theorem adj_path N ps x xd t : forall (s s' : vst reals) u gT gA gz D st,
  vpath ps x t s s' ->
  traceable true ps x t (vi s) (vT s) ->
  regular_run ps x t (vi s) (vT s) ->
  aguard N ps x t (vi s) (vT s) = Some st ->
  let r := rrun u t (mkR gT gA (vk s') gz (vi s') (vy s')) in
  exists A : rmem,
    (forall l, dirt st l = false -> rA r l = A l) /\
    (forall l, used st l = false -> A l = 0) /\
    wsum u (vy s) (touts ps x xd t (vi s) (vT s) D) =
      dot N A D + isum (rz r) xd (vi s) (vi s' - vi s).
Proof.
  induction t as [|o t IH]; intros s s' u gT gA gz D st P Tr Rg Ga; cbv zeta.
  - inversion P; subst. cbn in Ga. injection Ga as <-. exists (fun _ => 0).
    cbn [dirt used touts wsum]. rewrite Nat.sub_diag. cbn [isum].
    rewrite dot_zero by auto. repeat split; auto; try discriminate; try ring.
  - inversion P as [|o' t' s0 s0' pk Kp P']; subst.
    pose proof (vpath_vi P') as Vi.
    cbn [traceable] in Tr. destruct Tr as (Ok & Rs & Np & Tr).
    cbn [regular_run] in Rg. destruct Rg as [Rb Rg].
    cbn [aguard] in Ga.
    set (b := resolve (vT s) o) in *.
    set (i' := if is_ind b then S (vi s) else vi s) in *.
    set (T' := zval ps x (vi s) b (vT s)) in *.
    destruct (aguard N ps x t i' T') as [st1|] eqn:G1; [|discriminate].
    pose proof (@restore_path reals true reals_exact ps x t _ _ u gT gA gz P') as RP.
    cbn [vnext vi vT] in RP. fold b i' T' in RP. specialize (RP Tr). cbv zeta in RP.
    specialize (IH (vnext ps x o pk s) s' u gT gA gz (tval ps x xd (vi s) b (vT s) D) st1 P').
    cbn [vnext vi vT vy] in IH. fold b i' T' in IH. specialize (IH Tr Rg G1).
    cbv zeta in IH.
    rewrite rrun_cons.
    set (r1 := rrun u t (mkR gT gA (vk s') gz (vi s') (vy s'))) in *.
    set (r := rstep u o r1).
    destruct RP as (Ek & Ei & Ed & Ev). destruct IH as (A & Ag & Uz & W).
    cbn [vnext vk] in Ek. cbn [vnext vy] in Ed. cbn [vnext vi] in Vi.
    fold b in Ed, Vi. fold i' in Vi.
    assert (Eb : resolve (rT r1) o = b).
    { rewrite <- Rs. apply resolve_pointer. intros l Hl. apply Ev.
      rewrite none_in_iff in Np. now apply Np. }
    cbn [touts]. fold b i' T'.
    destruct (not_dep_ind_cases b) as [Hi|[[res Hd]|[Hi Ho]]].
    + (* independent *)
      destruct b eqn:Heqb; try discriminate Hi. cbn [aback] in Ga. cbn [is_ind] in i'.
      subst i'.
      match type of Ga with (if ?c then _ else _) = _ => destruct c eqn:C; [|discriminate] end.
      injection Ga as <-. bools. cbn [dirt used].
      assert (Hr : (res < N)%nat) by (apply H; cbn; auto).
      assert (Hd : dirt st1 res = false) by (apply H0; cbn; auto).
      exists (rupd A res 0).
      assert (RA : rA r = rA r1 /\ rz r = @upd reals (rz r1) (rii r1 - 1) (rA r1 res)).
      { subst r. unfold rstep. rewrite Eb. cbn [rval]. unfold restore.
        destruct (pop reals (rk r1)). cbn. auto. }
      destruct RA as [-> ->]. split; [|split].
      * intros l Hl. apply sadd_false in Hl as [Hl Hd']. cbn in Hl.
        rewrite rupd_neq by intuition congruence. auto.
      * intros l Hl. apply sdel_false in Hl. unfold rupd, upd.
        destruct (Nat.eqb_spec l res); auto. apply Uz. cbn in Hl. intuition congruence.
      * cbn [tout_of app].
        cbn [out_of length] in W. rewrite Nat.add_0_r in W. rewrite W.
        rewrite Ei. replace (S (vi s) - 1)%nat with (vi s) by lia.
        replace (vi s' - vi s)%nat with (S (vi s' - S (vi s))) by lia.
        cbn [isum]. change (@upd reals (rz r1) (vi s) (rA r1 res)) with
          (rupd (rz r1) (vi s) (rA r1 res)). rewrite rupd_eq.
        rewrite (@isum_ext (rupd (rz r1) (vi s) (rA r1 res)) (rz r1)).
        2:{ intros k0 Hk. apply rupd_neq. lia. }
        cbn [tval]. fold (rupd D res (xd (vi s))).
        rewrite dot_updA, dot_updD by auto. rewrite (Ag res) by auto. ring.
    + (* dependent *)
      rewrite Hd in *. cbn [aback] in Ga. cbn [is_ind] in i'. subst i'.
      match type of Ga with (if ?c then _ else _) = _ => destruct c eqn:C; [|discriminate] end.
      injection Ga as <-. bools. cbn [dirt used].
      assert (Hr : (res < N)%nat) by (apply H; cbn; auto).
      assert (Hu : A res = 0) by (apply Uz, H0; cbn; auto).
      exists (rupd A res (u (rid r1 - 1)%nat)).
      assert (RA : rA r = rupd (rA r1) res (u (rid r1 - 1)%nat) /\ rz r = rz r1).
      { subst r. unfold rstep. rewrite Eb. cbn [rval]. auto. }
      destruct RA as [-> ->]. split; [|split].
      * intros l Hl. apply sdel_false in Hl. unfold rupd, upd.
        destruct (Nat.eqb_spec l res); auto. apply Ag. cbn in Hl. intuition congruence.
      * intros l Hl. apply sadd_false in Hl as [Hl Hl']. cbn in Hl.
        rewrite rupd_neq by intuition congruence. auto.
      * cbn [tout_of app wsum].
        cbn [out_of length] in W, Ed. rewrite Nat.add_1_r in W, Ed. rewrite W.
        rewrite Ed. replace (S (vy s) - 1)%nat with (vy s) by lia.
        cbn [tval]. rewrite dot_updA by auto. rewrite Hu. rewrite Hd. cbn [is_ind]. ring.
    + (* other operations *)
      subst i'. rewrite Hi in *.
      assert (Ho' : forall T, tout_of b T = []).
      { intros T0. specialize (Ho T0). destruct b; auto; discriminate Ho. }
      rewrite Ho'. cbn [app].
      destruct (@rstep_other u o r1) as [RA RZ]; rewrite ?Eb; auto.
      fold r in RA, RZ. rewrite Eb, Ek in RA.
      destruct (@aback_ok N b ps x xd (vi s) (vT s) D (rT r1) (rA r1) A pk (vk s)
                  (@badset reals true ps x t (vi s) T') st1 st)
        as (A' & P1 & P2 & P3); auto.
      exists A'. rewrite RA, RZ. split; [exact P1|split; [exact P2|]].
      rewrite Ho in W. cbn [length] in W. rewrite Nat.add_0_r in W. rewrite W, P3. ring.
Qed.
