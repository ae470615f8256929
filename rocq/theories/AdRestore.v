(* C16: the reverse sweep restores the values of the forward sweep.

   A path is a forward execution that fills the Taylor stack: a forward sweep
   with keep, or the recording itself with keep (trace_on(tag, 1)).  The values
   are those of AdModel.zval; what is pushed is AdModel.pushes, except that
   nothing is required of the values pushed by vec_copy and vec_axpy (the recorder
   pushes other values than the sweep, and the reverse sweep pops them in the
   wrong order; see AdReverseProps.v). *)
Require Import List ZArith Bool Arith Lia.
Require Import Verif.AdModel Verif.AdRecord Verif.AdSpec Verif.AdReplay.
Import ListNotations.
Set Implicit Arguments.

Section Restore.
Variable K : Arith.
Notation val := (V K).
Notation mem := (mem K).
Notation op := (op K).
Notation bop := (bop K).
Implicit Types (T : mem) (b : bop) (o : op).

(* ------------------------------------------------------------------ *)
(* Sets of locations                                                    *)
Definition sin (l : nat) (s : list nat) : bool := existsb (Nat.eqb l) s.
Definition sadd (f : nat -> bool) (s : list nat) : nat -> bool := fun l => sin l s || f l.
Definition sdel (f : nat -> bool) (s : list nat) : nat -> bool := fun l => negb (sin l s) && f l.
Definition none_in (f : nat -> bool) (s : list nat) : bool := forallb (fun l => negb (f l)) s.

Lemma sin_iff l s : sin l s = true <-> In l s.
Proof.
  unfold sin. rewrite existsb_exists. split.
  - intros (k & H & E). apply Nat.eqb_eq in E. now subst.
  - intros H. exists l. split; auto. apply Nat.eqb_refl.
Qed.
Lemma sin_false l s : sin l s = false <-> ~ In l s.
Proof. rewrite <- sin_iff. destruct (sin l s); split; congruence. Qed.
Lemma sdel_false f s l : sdel f s l = false <-> In l s \/ f l = false.
Proof.
  unfold sdel. rewrite andb_false_iff, negb_false_iff, sin_iff. tauto.
Qed.
Lemma sadd_false f s l : sadd f s l = false <-> ~ In l s /\ f l = false.
Proof. unfold sadd. rewrite orb_false_iff, sin_false. tauto. Qed.
Lemma none_in_iff f s : none_in f s = true <-> forall l, In l s -> f l = false.
Proof.
  unfold none_in. rewrite forallb_forall. split; intros H l Hl.
  - apply negb_true_iff. auto.
  - rewrite H; auto.
Qed.

(* ------------------------------------------------------------------ *)
(* Which locations may have a wrong value before b, when bad tells it for after
   b.  exact: y + a*b - a*b = y in this arithmetic. *)
Definition vback (exact : bool) (b : bop) (bad : nat -> bool) : nat -> bool :=
  match b with
  | Cmp _ _ _ | AssignDep _ _ => bad
  | EqPlusProd _ a1 a2 res | EqMinProd _ a1 a2 res =>
      if exact && none_in bad [a1; a2] && negb (a1 =? res) && negb (a2 =? res)
      then bad else sadd bad [res]
  | VecCopy _ _ n res | VecAxpy _ _ _ _ n res | TakeStock _ n res _ => sadd bad (seq res n)
  | DeathNot _ a1 a2 => sdel bad (seq a1 (S a2 - a1))
  | _ => sdel bad (bwrites b)
  end.

(* death_not with an empty range pushes one value and pops none *)
Definition okop (b : bop) : Prop :=
  match b with DeathNot _ a1 a2 => a1 <= a2 | _ => True end.

(* what may have been pushed *)
Definition keeps (b : bop) (T : mem) (pk : list val) : Prop :=
  match b with
  | VecCopy _ _ n _ | VecAxpy _ _ _ _ n _ => length pk = n
  | _ => pk = pushes b T
  end.

Record vst := mkV { vT : mem; vi : nat; vy : nat; vk : list val }.

Definition vnext (ps x : nat -> val) (o : op) (pk : list val) (s : vst) : vst :=
  let b := resolve (vT s) o in
  mkV (zval ps x (vi s) b (vT s)) (if is_ind b then S (vi s) else vi s)
      (vy s + length (out_of b (vT s))) (rev pk ++ vk s).

Inductive vpath (ps x : nat -> val) : list op -> vst -> vst -> Prop :=
| vp_nil s : vpath ps x [] s s
| vp_cons o t s s' pk :
    keeps (resolve (vT s) o) (vT s) pk ->
    vpath ps x t (vnext ps x o pk s) s' ->
    vpath ps x (o :: t) s s'.

(* Locations that may not be restored when the trace t, run from memory T with i
   inputs consumed, has been undone. *)
Fixpoint badset (ex : bool) (ps x : nat -> val) (t : list op) (i : nat) (T : mem)
  : nat -> bool :=
  match t with
  | [] => fun _ => true
  | o :: t' =>
      let b := resolve T o in
      vback ex b (badset ex ps x t' (if is_ind b then S i else i) (zval ps x i b T))
  end.

(* No operation overwrites the variable that tells where it goes, and that
   variable is restored in time. *)
Fixpoint traceable (ex : bool) (ps x : nat -> val) (t : list op) (i : nat) (T : mem)
  : Prop :=
  match t with
  | [] => True
  | o :: t' =>
      let b := resolve T o in
      let i' := if is_ind b then S i else i in
      let T' := zval ps x i b T in
      okop b /\ resolve T' o = b /\
      none_in (badset ex ps x t' i' T') (pointer o) = true /\
      traceable ex ps x t' i' T'
  end.

(* ------------------------------------------------------------------ *)
(* Frames                                                               *)

Lemma vcopy_frame n : forall arg res q T l, ~ (res + q <= l < res + q + n) ->
  vcopy n arg res q T l = T l.
Proof.
  induction n; intros arg res q T l H; cbn; auto.
  rewrite IHn by lia. apply upd_neq. lia.
Qed.
Lemma vdot_frame n : forall a1 a2 res q T l, l <> res -> vdot n a1 a2 res q T l = T l.
Proof.
  induction n; intros a1 a2 res q T l H; cbn; auto.
  rewrite IHn by auto. now apply upd_neq.
Qed.
Lemma vaxpy_frame n : forall arg a1 a2 res q T l, ~ (res + q <= l < res + q + n) ->
  vaxpy n arg a1 a2 res q T l = T l.
Proof.
  induction n; intros arg a1 a2 res q T l H; cbn; auto.
  rewrite IHn by lia. apply upd_neq. lia.
Qed.

(* an operation changes what it writes only *)
Lemma zval_frame ps x i b T l : ~ In l (bwrites b) -> zval ps x i b T l = T l.
Proof.
  destruct b; cbn [bwrites zval In]; intros H; auto;
    try (apply upd_neq; intuition congruence);
    try (cbv zeta; rewrite !upd_neq by intuition congruence; reflexivity).
  - reflexivity.
  - reflexivity.
  - destruct (ltb K (zero K) (T arg)); auto. apply upd_neq; intuition congruence.
  - destruct (leb K (zero K) (T arg)); auto. apply upd_neq; intuition congruence.
  - apply vcopy_frame. rewrite in_seq in H. lia.
  - rewrite vdot_frame by intuition congruence. apply upd_neq; intuition congruence.
  - apply vaxpy_frame. rewrite in_seq in H. lia.
  - rewrite stock_val. rewrite in_seq in H.
    destruct (Nat.leb_spec res l), (Nat.ltb_spec l (res + size)); cbn; auto; lia.
Qed.

(* ------------------------------------------------------------------ *)
(* The reverse of one operation                                         *)

Lemma rcopy_values n : forall arg res q T A pk k, length pk = n ->
  let '(T1, _, k1) := rcopy n arg res q T A (pk ++ k) in
  k1 = k /\ forall l, ~ (res + q <= l < res + q + n) -> T1 l = T l.
Proof.
  induction n; intros arg res q T A pk k H; cbn.
  - destruct pk; [|discriminate]. cbn. auto.
  - destruct pk as [|v pk]; [discriminate|]. cbn.
    specialize (IHn arg res (S q) (upd T (res + q) v)
      (upd (upd A (arg + q) (add K (A (arg + q)) (A (res + q)))) (res + q) (zero K))
      pk k ltac:(cbn in H; lia)).
    destruct (rcopy n arg res (S q) _ _ _) as [[T1 A1] k1].
    destruct IHn as [-> E]. split; auto.
    intros l Hl. rewrite E by lia. apply upd_neq. lia.
Qed.
Lemma raxpy_values n : forall arg a1 a2 res q T A pk k, length pk = n ->
  let '(T1, _, k1) := raxpy n arg a1 a2 res q T A (pk ++ k) in
  k1 = k /\ forall l, ~ (res + q <= l < res + q + n) -> T1 l = T l.
Proof.
  induction n; intros arg a1 a2 res q T A pk k H; cbn.
  - destruct pk; [|discriminate]. cbn. auto.
  - destruct pk as [|v pk]; [discriminate|]. cbn.
    match goal with |- let '(_, _) := raxpy n arg a1 a2 res (S q) ?T' ?A' _ in _ =>
      specialize (IHn arg a1 a2 res (S q) T' A' pk k ltac:(cbn in H; lia)) end.
    destruct (raxpy n arg a1 a2 res (S q) _ _ _) as [[T1 A1] k1].
    destruct IHn as [-> E]. split; auto.
    intros l Hl. rewrite E by lia. apply upd_neq. lia.
Qed.

Lemma down_up n : forall a, rev (down n a) = seq a (S n).
Proof.
  assert (P : forall n a, down n a = rev (seq a (S n))).
  { induction n0; intros a; [reflexivity|].
    rewrite seq_S, rev_app_distr. cbn [rev app]. rewrite <- IHn0.
    cbn [down]. f_equal. }
  intros a. rewrite P. apply rev_involutive.
Qed.

Lemma restore_up_vals n : forall j T (vs : list val) k, length vs = n ->
  let '(T1, k1) := restore_up n j T (vs ++ k) in
  k1 = k /\ forall l, T1 l = if (j <=? l) && (l <? j + n) then nth (l - j) vs (zero K) else T l.
Proof.
  induction n; intros j T vs k H; cbn [restore_up].
  - destruct vs; [|discriminate]. split; [reflexivity|]. intros l.
    destruct (Nat.leb_spec j l), (Nat.ltb_spec l (j + 0)); cbn [andb]; auto; lia.
  - destruct vs as [|v vs]; [discriminate|]. cbn [app restore pop].
    specialize (IHn (S j) (upd T j v) vs k ltac:(cbn in H; lia)).
    unfold restore, pop. cbn [app].
    destruct (restore_up n (S j) (upd T j v) (vs ++ k)) as [T1 k1].
    destruct IHn as [-> E]. split; auto. intros l. rewrite E.
    destruct (Nat.leb_spec (S j) l), (Nat.leb_spec j l), (Nat.ltb_spec l (S j + n)),
      (Nat.ltb_spec l (j + S n)); cbn [andb]; try lia.
    + destruct (l - j) eqn:Q; [lia|]. cbn. replace (l - S j) with n0 by lia. reflexivity.
    + apply upd_neq. lia.
    + replace l with j by lia. rewrite Nat.sub_diag. cbn. apply upd_eq.
    + apply upd_neq. lia.
Qed.

Variable ex : bool.
Hypothesis Exact : ex = true -> forall a c : val,
  sub K (add K a c) c = a /\ add K (sub K a c) c = a.

Ltac split_upd :=
  unfold upd;
  repeat match goal with
  | |- context [Nat.eqb ?a ?c] => destruct (Nat.eqb_spec a c); subst
  end.

Lemma rval_values ps x i b T Tr A pk k bad :
  okop b -> keeps b T pk ->
  (forall l, bad l = false -> Tr l = zval ps x i b T l) ->
  let '(T1, _, k1) := rval b Tr A (rev pk ++ k) in
  k1 = k /\ forall l, vback ex b bad l = false -> T1 l = T l.
Proof.
  intros Ok Kp H.
  (* one result, restored *)
  assert (S1 : forall res, bwrites b = [res] -> forall l,
            sdel bad [res] l = false -> upd Tr res (T res) l = T l).
  { intros res Hw l Hl. apply sdel_false in Hl. cbn in Hl.
    destruct (Nat.eq_dec l res) as [->|Ne]; [apply upd_eq|].
    rewrite upd_neq by auto. destruct Hl as [[?|[]]|Hl]; [congruence|].
    rewrite H by auto. apply zval_frame. rewrite Hw. cbn. intuition congruence. }
  destruct b; cbn [keeps okop] in *;
    try (subst pk; cbn [pushes rev app rval vback]; unfold restore, pop;
         split; [reflexivity|]; intros l0 Hl; apply S1; [reflexivity|exact Hl]).
  - (* cmp *) subst pk. cbn. split; auto.
  - (* assign_dep *) subst pk. cbn. split; auto.
  - (* eq_plus_prod *) subst pk. cbn [pushes rev app rval vback]. split; auto.
    intros l Hl.
    destruct (ex && none_in bad [a1; a2] && negb (a1 =? res) && negb (a2 =? res)) eqn:G.
    + apply andb_prop in G as [G G4]. apply andb_prop in G as [G G3].
      apply andb_prop in G as [G1 G2]. rewrite none_in_iff in G2.
      apply negb_true_iff, Nat.eqb_neq in G3, G4.
      rewrite (H a1), (H a2) by (apply G2; cbn; auto).
      rewrite !zval_frame by (cbn; intuition congruence).
      destruct (Nat.eq_dec l res) as [->|Ne].
      * rewrite upd_eq, H by auto. cbn. rewrite upd_eq. now apply Exact.
      * rewrite upd_neq, H by auto. apply zval_frame. cbn. intuition congruence.
    + apply sadd_false in Hl as [N Hl]. cbn in N.
      rewrite upd_neq by intuition congruence. rewrite H by auto.
      apply zval_frame. cbn. intuition congruence.
  - (* eq_min_prod *) subst pk. cbn [pushes rev app rval vback]. split; auto.
    intros l Hl.
    destruct (ex && none_in bad [a1; a2] && negb (a1 =? res) && negb (a2 =? res)) eqn:G.
    + apply andb_prop in G as [G G4]. apply andb_prop in G as [G G3].
      apply andb_prop in G as [G1 G2]. rewrite none_in_iff in G2.
      apply negb_true_iff, Nat.eqb_neq in G3, G4.
      rewrite (H a1), (H a2) by (apply G2; cbn; auto).
      rewrite !zval_frame by (cbn; intuition congruence).
      destruct (Nat.eq_dec l res) as [->|Ne].
      * rewrite upd_eq, H by auto. cbn. rewrite upd_eq. now apply Exact.
      * rewrite upd_neq, H by auto. apply zval_frame. cbn. intuition congruence.
    + apply sadd_false in Hl as [N Hl]. cbn in N.
      rewrite upd_neq by intuition congruence. rewrite H by auto.
      apply zval_frame. cbn. intuition congruence.
  - (* div_d_a *) subst pk. cbn [pushes rev app rval vback]. unfold restore, pop.
    destruct (Nat.eqb arg res); (split; [reflexivity|]); intros l Hl;
      (apply S1; [reflexivity|exact Hl]).
  - (* sin *) subst pk. cbn [pushes rev app rval vback]. unfold restore, pop. split; auto.
    intros l Hl. apply sdel_false in Hl. cbn [bwrites In] in Hl.
    destruct (Nat.eq_dec l a2) as [->|N2]; [apply upd_eq|].
    rewrite upd_neq by auto.
    destruct (Nat.eq_dec l res) as [->|N1]; [apply upd_eq|].
    rewrite upd_neq, H by intuition congruence. apply zval_frame. cbn. intuition congruence.
  - (* cos *) subst pk. cbn [pushes rev app rval vback]. unfold restore, pop. split; auto.
    intros l Hl. apply sdel_false in Hl. cbn [bwrites In] in Hl.
    destruct (Nat.eq_dec l a2) as [->|N2]; [apply upd_eq|].
    rewrite upd_neq by auto.
    destruct (Nat.eq_dec l res) as [->|N1]; [apply upd_eq|].
    rewrite upd_neq, H by intuition congruence. apply zval_frame. cbn. intuition congruence.
  - (* pow *) subst pk. cbn [pushes rev app rval vback]. unfold restore, pop.
    destruct (Nat.eqb arg res); (split; [reflexivity|]); intros l Hl;
      (apply S1; [reflexivity|exact Hl]).
  - (* vec_copy *) cbn [rval vback].
    pose proof (@rcopy_values size arg res 0 Tr A (rev pk) k
                  ltac:(now rewrite rev_length)) as R.
    destruct (rcopy size arg res 0 Tr A (rev pk ++ k)) as [[T1 A1] k1].
    destruct R as [-> E]. split; auto. intros l Hl. apply sadd_false in Hl as [N Hl].
    rewrite in_seq in N. rewrite E by lia. rewrite H by auto. apply zval_frame.
    cbn. rewrite in_seq. lia.
  - (* vec_axpy *) cbn [rval vback].
    pose proof (@raxpy_values size arg a1 a2 res 0 Tr A (rev pk) k
                  ltac:(now rewrite rev_length)) as R.
    destruct (raxpy size arg a1 a2 res 0 Tr A (rev pk ++ k)) as [[T1 A1] k1].
    destruct R as [-> E]. split; auto. intros l Hl. apply sadd_false in Hl as [N Hl].
    rewrite in_seq in N. rewrite E by lia. rewrite H by auto. apply zval_frame.
    cbn. rewrite in_seq. lia.
  - (* take_stock *) subst pk. cbn [pushes rev app rval vback]. split; auto.
    intros l Hl. apply sadd_false in Hl as [N Hl]. rewrite H by auto.
    apply zval_frame. exact N.
  - (* death_not *) subst pk. cbn [pushes rval vback].
    rewrite <- map_rev, down_up.
    replace (S (a2 - a1)) with (S a2 - a1) by lia.
    pose proof (@restore_up_vals (S a2 - a1) a1 Tr (map T (seq a1 (S a2 - a1))) k
                  ltac:(now rewrite map_length, seq_length)) as R.
    destruct (restore_up (S a2 - a1) a1 Tr (map T (seq a1 (S a2 - a1)) ++ k)) as [T1 k1].
    destruct R as [-> E]. split; auto. intros l Hl. rewrite E.
    apply sdel_false in Hl. rewrite in_seq in Hl.
    destruct (Nat.leb_spec a1 l), (Nat.ltb_spec l (a1 + (S a2 - a1))); cbn [andb].
    + rewrite (nth_indep _ (zero K) (T 0)) by (rewrite map_length, seq_length; lia).
      rewrite map_nth, seq_nth by lia. f_equal. lia.
    + rewrite H by (destruct Hl; [lia|auto]). reflexivity.
    + rewrite H by (destruct Hl; [lia|auto]). reflexivity.
    + rewrite H by (destruct Hl; [lia|auto]). reflexivity.
Qed.

Lemma resolve_pointer o T1 T2 : (forall l, In l (pointer o) -> T1 l = T2 l) ->
  resolve T1 o = resolve T2 o.
Proof.
  intros H. destruct (@resolve_agree K o (fun l => In l (pointer o)) T1 T2); auto.
Qed.

Lemma is_ind_out b : is_ind b = true -> forall T, out_of b T = [].
Proof. destruct b; cbn; congruence. Qed.

Lemma rstep_parts (u : nat -> val) o (r : rstate K) :
  let b := resolve (rT r) o in
  let '(T1, _, k1) := rval b (rT r) (rA r) (rk r) in
  rT (rstep u o r) = T1 /\ rk (rstep u o r) = k1 /\
  rii (rstep u o r) = rii r - (if is_ind b then 1 else 0) /\
  rid (rstep u o r) = rid r - length (out_of b (rT r)).
Proof.
  cbv zeta. unfold rstep.
  destruct (rval (resolve (rT r) o) (rT r) (rA r) (rk r)) as [[T1 A1] k1].
  destruct (resolve (rT r) o); cbn; rewrite ?Nat.sub_0_r; auto.
Qed.

Lemma out_length b T1 T2 : length (out_of b T1) = length (out_of b T2).
Proof. destruct b; reflexivity. Qed.

(* Undoing a path. *)
Theorem restore_path ps x t : forall s s' u gT gA gz,
  vpath ps x t s s' ->
  traceable ex ps x t (vi s) (vT s) ->
  let r := rrun u t (mkR gT gA (vk s') gz (vi s') (vy s')) in
  rk r = vk s /\ rii r = vi s /\ rid r = vy s /\
  forall l, badset ex ps x t (vi s) (vT s) l = false -> rT r l = vT s l.
Proof.
  induction t as [|o t IH]; intros s s' u gT gA gz P Tr; cbv zeta.
  - inversion P; subst. cbn. repeat split; auto. discriminate.
  - inversion P as [|o' t' s0 s0' pk Kp P']; subst.
    cbn [traceable] in Tr. destruct Tr as (Ok & Rs & Np & Tr).
    set (b := resolve (vT s) o) in *.
    specialize (IH _ _ u gT gA gz P'). cbn [vnext vi vT] in IH. fold b in IH.
    specialize (IH Tr). cbv zeta in IH.
    unfold rrun in *. cbn [rev]. rewrite fold_left_app. cbn [fold_left].
    set (r := fold_left (fun s o => rstep u o s) (rev t)
                (mkR gT gA (vk s') gz (vi s') (vy s'))) in *.
    destruct IH as (Ek & Ei & Ed & Ev).
    set (bad := badset ex ps x t (if is_ind b then S (vi s) else vi s)
                  (zval ps x (vi s) b (vT s))) in *.
    assert (Eb : resolve (rT r) o = b).
    { rewrite <- Rs. apply resolve_pointer. intros l Hl. apply Ev.
      rewrite none_in_iff in Np. now apply Np. }
    pose proof (rstep_parts u o r) as Q. cbv zeta in Q. rewrite Eb in Q.
    pose proof (@rval_values ps x (vi s) b (vT s) (rT r) (rA r) pk (vk s) bad Ok Kp Ev) as Rv.
    cbn [vnext vk] in Ek. rewrite Ek in Q.
    destruct (rval b (rT r) (rA r) (rev pk ++ vk s)) as [[T1 A1] k1].
    destruct Q as (Q1 & Q2 & Q3 & Q4). destruct Rv as [-> Rv].
    rewrite Q2, Q3, Q4, Q1, Ei, Ed. cbn [vnext vi vy]. fold b.
    rewrite (out_length b (rT r) (vT s)).
    repeat split; auto.
    + destruct (is_ind b); lia.
    + lia.
Qed.

(* A path of a sweep *)
Lemma zexec_path ps x t : forall (m m' : fstate K),
  zexec ps x t m = inl m' ->
  vpath ps x t (mkV (fT m) (fi m) (length (fy m)) (fk m))
               (mkV (fT m') (fi m') (length (fy m')) (fk m')).
Proof.
  induction t as [|o t IH]; intros m m' H; cbn in H.
  - injection H as <-. constructor.
  - destruct (zstep ps x o m) as [m1|] eqn:E; [|discriminate].
    unfold zstep in E. destruct (oob (fT m) o); [discriminate|].
    destruct (zabort (resolve (fT m) o) (fT m)); [discriminate|].
    injection E as <-. apply IH in H. clear IH.
    econstructor; [|].
    2:{ cbn [fT fi fy fk] in H. unfold vnext. cbn [vT vi vy vk].
        rewrite app_length in H. exact H. }
    cbn [vT]. destruct (resolve (fT m) o); cbn; auto.
    + generalize (fT m). generalize 0. clear H.
      induction size as [|n IHn]; intros q T; cbn; auto.
    + generalize (fT m). generalize 0. clear H.
      induction size as [|n IHn]; intros q T; cbn; auto.
Qed.

Lemma zrun_path ps x t (m m' : fstate K) :
  zrun ps x t m = Done m' -> (0 <= frc m')%Z ->
  zexec ps x t m = inl m'.
Proof.
  revert m. induction t as [|o t IH]; intros m H C; cbn in *.
  - congruence.
  - destruct (zstep ps x o m) as [m1|r] eqn:E; [auto|]. subst r.
    unfold zstep in E. destruct (oob (fT m) o); [discriminate|].
    destruct (zabort (resolve (fT m) o) (fT m)) as [c|] eqn:Z; [|discriminate].
    injection E as <-. cbn in C.
    destruct (resolve (fT m) o); cbn in Z; try discriminate.
    + destruct (cmp_bad _ _); [injection Z as <-; lia|discriminate].
    + destruct (eqb K _ _); [discriminate|injection Z as <-; lia].
Qed.
End Restore.
