(* C16: undoing a sweep, or the recording itself, in any arithmetic.      *)
From Coq Require Import List ZArith Bool Arith Lia FunctionalExtensionality.
Require Import Verif.AdModel Verif.AdRecord Verif.AdSpec Verif.AdReplay Verif.AdRestore.
Import ListNotations.
Set Implicit Arguments.
Unset Asymmetric Patterns.

Section Keep.
Variable K : Arith.
Notation val := (V K).
Notation mem := (mem K).
Notation op := (op K).
Notation bop := (bop K).

(* ------------------------------------------------------------------ *)
(* Specification: operations whose effect on the values is undone.      *)

(* Not undone: vec_copy and vec_axpy (values kept in the wrong order, C16_vec_copy_refuted),
   eq_plus_prod / eq_min_prod (recomputed, exact only over the reals),
   take_stock (the values before it belong to no variable). *)
Definition undone (b : bop) : Prop :=
  match b with
  | VecCopy _ _ _ _ | VecAxpy _ _ _ _ _ _ | TakeStock _ _ _ _
  | EqPlusProd _ _ _ _ | EqMinProd _ _ _ _ => False
  | DeathNot _ a1 a2 => a1 <= a2
  | _ => True
  end.

(* Along the run of t from memory T with i inputs consumed; the variables that
   tell an advector operation where to go are below last and not overwritten by
   that operation itself. *)
Fixpoint undoable (last : nat) (ps x : nat -> val) (t : list op) (i : nat) (T : mem) : Prop :=
  match t with
  | [] => True
  | o :: t' =>
      let b := resolve T o in
      undone b /\
      (forall l, In l (pointer o) -> l <= last /\ ~ In l (bwrites b)) /\
      undoable last ps x t' (if is_ind b then S i else i) (zval ps x i b T)
  end.

(* ------------------------------------------------------------------ *)
Lemma undoable_ok last ps x t : forall i T,
  undoable last ps x t i T ->
  let t' := t ++ [Plain (DeathNot K 0 last)] in
  traceable false ps x t' i T /\ forall l, l <= last -> badset false ps x t' i T l = false.
Proof.
  induction t as [|o t IH]; intros i T U; cbn [app].
  - cbn [traceable badset resolve okop pointer none_in forallb is_ind vback].
    split.
    + repeat split; auto. lia.
    + intros l Hl. apply sdel_false. left. apply in_seq. lia.
  - cbn [undoable] in U. destruct U as (Ub & Up & U).
    specialize (IH _ _ U). cbv zeta in IH. destruct IH as [Tr Bd].
    cbn [traceable badset]. set (b := resolve T o) in *.
    set (i' := if is_ind b then S i else i) in *. set (T' := zval ps x i b T) in *.
    split.
    + split; [|split; [|split]]; auto.
      * destruct b; cbn in *; auto.
      * unfold b. symmetry. apply resolve_pointer. intros l Hl. symmetry.
        apply zval_frame. now apply Up.
      * apply none_in_iff. intros l Hl. apply Bd. now apply Up.
    + intros l Hl. specialize (Bd l Hl).
      destruct b; cbn in Ub; try contradiction; cbn [vback]; auto;
        apply sdel_false; auto.
Qed.

Lemma zexec_app' ps x t1 t2 (m : fstate K) m' : zexec ps x (t1 ++ t2) m = inl m' ->
  exists m1, zexec ps x t1 m = inl m1 /\ zexec ps x t2 m1 = inl m'.
Proof.
  rewrite zexec_app. destruct (zexec ps x t1 m) as [m1|]; [|discriminate]. eauto.
Qed.

(* After a sweep with keep over t1 ++ t2 ++ death_not, the reverse sweep is
   stopped when t2 has been undone: the variables have the values they had
   between t1 and t2, and the stack is what it was there. *)
Theorem C16_restores last ps x t1 t2 g m m1 u gT gA gz :
  let t := t1 ++ t2 ++ [Plain (DeathNot K 0 last)] in
  zos_forward ps x g t = Done m -> (0 <= frc m)%Z ->
  zos_forward ps x g t1 = Done m1 ->
  undoable last ps x t2 (fi m1) (fT m1) ->
  let r := fos_reverse u (fi m) (length (fy m)) gT gA gz (fk m) (t2 ++ [Plain (DeathNot K 0 last)]) in
  (forall l, l <= last -> rT r l = fT m1 l) /\ rk r = fk m1 /\
  rii r = fi m1 /\ rid r = length (fy m1).
Proof.
  cbv zeta. intros Z C Z1 U.
  pose proof (zrun_path _ _ _ _ Z C) as E.
  destruct (zexec_app' _ _ _ _ _ E) as (m1' & E1 & E2).
  assert (Q : m1' = m1).
  { unfold zos_forward in Z1. rewrite zrun_exec in Z1.
    destruct (zexec ps x t1 (mkF g 0 [] 3%Z [])); congruence. }
  subst m1'.
  pose proof (zexec_path _ _ _ _ E2) as P.
  destruct (undoable_ok _ _ _ _ _ _ U) as [Tr Bd]. cbv zeta in Tr, Bd.
  assert (EX : false = true -> forall a c : val,
     sub K (add K a c) c = a /\ add K (sub K a c) c = a) by discriminate.
  destruct (restore_path EX u gT gA gz P Tr) as (Q1 & Q2 & Q3 & Q4).
  cbn [vi vT vk vy] in *. unfold fos_reverse.
  split; [|split; [exact Q1|split; [exact Q2|exact Q3]]].
  intros l Hl. apply Q4, Bd, Hl.
Qed.

(* The whole stack is used up. *)
Theorem C16_stack_empty last ps x t0 t2 g m m0 u gT gA gz :
  let t := t0 ++ t2 ++ [Plain (DeathNot K 0 last)] in
  zos_forward ps x g t = Done m -> (0 <= frc m)%Z ->
  (* t0: take_stock *)
  (forall o, In o t0 -> exists n l vs, o = Plain (TakeStock K n l vs)) ->
  zos_forward ps x g t0 = Done m0 ->
  undoable last ps x t2 (fi m0) (fT m0) ->
  let r := fos_reverse u (fi m) (length (fy m)) gT gA gz (fk m) t in
  rk r = [] /\ rii r = 0 /\ rid r = 0.
Proof.
  cbv zeta. intros Z C St Z0 U.
  pose proof (zrun_path _ _ _ _ Z C) as E.
  destruct (zexec_app' _ _ _ _ _ E) as (m1' & E1 & E2).
  assert (Q : m1' = m0).
  { unfold zos_forward in Z0. rewrite zrun_exec in Z0.
    destruct (zexec ps x t0 (mkF g 0 [] 3%Z [])); congruence. }
  subst m1'.
  pose proof (zexec_path _ _ _ _ E) as P.
  destruct (undoable_ok _ _ _ _ _ _ U) as [Tr _]. cbv zeta in Tr.
  assert (EX : false = true -> forall a c : val,
     sub K (add K a c) c = a /\ add K (sub K a c) c = a) by discriminate.
  assert (Tr0 : traceable false ps x (t0 ++ t2 ++ [Plain (DeathNot K 0 last)]) 0 g).
  { assert (G : forall t0 (m m0 : fstate K), (forall o, In o t0 -> exists n l vs, o = Plain (TakeStock K n l vs)) ->
      zexec ps x t0 m = inl m0 ->
      traceable false ps x (t2 ++ [Plain (DeathNot K 0 last)]) (fi m0) (fT m0) ->
      traceable false ps x (t0 ++ t2 ++ [Plain (DeathNot K 0 last)]) (fi m) (fT m)).
    { clear. induction t0 as [|o t0 IH]; intros m m0 S E T.
      - cbn in E. injection E as ->. exact T.
      - destruct (S o (or_introl eq_refl)) as (n & l & vs & ->).
        cbn [app traceable resolve]. cbn [zexec] in E.
        unfold zstep in E. cbn [oob resolve zabort is_ind] in E.
        apply IH in E; [|intros; apply S; now right|exact T].
        cbn [okop pointer none_in forallb is_ind]. repeat split. exact E. }
    apply (G t0 (mkF g 0 [] 3%Z []) m0); auto. }
  destruct (restore_path EX u gT gA gz P Tr0) as (Q1 & Q2 & Q3 & _).
  cbn [vi vT vk vy fk fi fy length] in *. unfold fos_reverse. auto.
Qed.

(* ------------------------------------------------------------------ *)
(* Recording with keep                                                  *)

(* Calls whose kept values match the recorded operation: not vec_copy and
   vec_axpy, not a fused  y += a*b  (the product's location is changed without
   being kept), not frexp on a temporary. *)
Definition keepable (c : call K) : Prop :=
  match c with
  | CVecCopy _ _ _ _ | CVecAxpy _ _ _ _ _ _ | CFrexp _ _ _ => False
  | CEqProd _ _ _ a b y fuse => fuse = false \/ y = a \/ y = b
  | CSin _ k a b | CCos _ k a b => True
  | _ => True
  end.

Definition pkept (p : prim K) (T : mem) : Prop :=
  match p_op p T with
  | [o] => p_keep p T = pushes (resolve T o) T /\ p_lost p = []
  | _ => False
  end.

Definition vof (s : rec K) : vst K := mkV (sT s) (si s) (length (sy s)) (sk s).

Lemma vpath_app ps x t1 : forall t2 (s s1 s2 : vst K),
  vpath ps x t1 s s1 -> vpath ps x t2 s1 s2 -> vpath ps x (t1 ++ t2) s s2.
Proof.
  induction t1 as [|o t1 IH]; intros t2 s s1 s2 H1 H2; inversion H1; subst; cbn; auto.
  econstructor; eauto.
Qed.

Lemma vcopy_push_len n : forall arg res q T, length (vcopy_push (K:=K) n arg res q T) = n.
Proof. induction n; intros; cbn; auto. Qed.
Lemma vaxpy_push_len n : forall arg a1 a2 res q T, length (vaxpy_push (K:=K) n arg a1 a2 res q T) = n.
Proof. induction n; intros; cbn; auto. Qed.
Lemma keeps_pushes b (T : mem) : keeps b T (pushes b T).
Proof. destruct b; cbn; auto using vcopy_push_len, vaxpy_push_len. Qed.

Lemma prim_path ps x p s s' :
  pgood ps x (si s) p (sT s) -> (p_op p (sT s) = [] -> False) -> pkept p (sT s) ->
  rprim ps x p s = Some s' ->
  exists t, sops s' = sops s ++ t /\ vpath ps x t (vof s) (vof s').
Proof.
  intros G _ Kp H. unfold rprim in H. destruct (p_fail p (sT s)) eqn:F; [discriminate|].
  injection H as <-. unfold pgood in G. unfold pkept in Kp.
  exists (p_op p (sT s)). split; [reflexivity|].
  destruct (p_op p (sT s)) as [|o [|]]; try contradiction.
  destruct Kp as [Kp Lo]. destruct G as (_ & G2 & G3 & _ & _ & G4).
  apply vp_cons with (pk := pushes (resolve (sT s) o) (sT s)).
  { apply keeps_pushes. }
  replace (vnext ps x o (pushes (resolve (sT s) o) (sT s)) (vof s)) with
    (vof (mkRec (p_val p ps x (si s) (sT s)) (if p_ind p then S (si s) else si s)
       (sops s ++ [o]) (rev (p_keep p (sT s)) ++ sk s) (sy s ++ p_dep p (sT s)) (sd s))).
  { constructor. }
  unfold vof, vnext. cbn [sT si sops sk sy sd vT vi vy vk]. rewrite G2, G3, Kp, app_length.
  f_equal. apply functional_extensionality. intros l. apply G4. rewrite Lo. auto.
Qed.

Lemma prims_path ps x l : forall s s',
  goodprims ps x l s -> (forall p, In p l -> forall T, pkept p T) ->
  rprims ps x l s = Some s' ->
  exists t, sops s' = sops s ++ t /\ vpath ps x t (vof s) (vof s').
Proof.
  induction l as [|p l IH]; intros s s' G Kp H; cbn in H.
  - injection H as <-. exists []. rewrite app_nil_r. split; auto. constructor.
  - cbn in G. destruct G as [G G'].
    destruct (rprim ps x p s) as [s1|] eqn:E; [|discriminate].
    destruct (@prim_path ps x p s s1 G) as (t1 & O1 & P1); auto.
    { intros Q. specialize (Kp p (or_introl eq_refl) (sT s)). unfold pkept in Kp. now rewrite Q in Kp. }
    { apply Kp. now left. }
    destruct (IH s1 s' G') as (t2 & O2 & P2); auto.
    { intros; apply Kp; now right. }
    exists (t1 ++ t2). rewrite O2, O1, app_assoc. split; auto. eapply vpath_app; eauto.
Qed.

Lemma kept_wr (o : mem -> op) r v : (forall T, pushes (resolve T (o T)) T = [T r]) ->
  forall T, pkept (wr o r v) T.
Proof. intros H T. unfold pkept. cbn. now rewrite H. Qed.

Lemma call_kept c : keepable c -> forall p, In p (prims c) -> forall T, pkept p T.
Proof.
  intros H.
  assert (KN : forall k l, (forall p, In p l -> forall T, pkept p T) ->
    forall p, In p (knew K k ++ l) -> forall T, pkept p T).
  { intros [r|] l Hl p Hp T; cbn in Hp; auto. destruct Hp as [<-|Hp]; auto.
    unfold pkept. cbn. auto. }
  assert (DF : forall r T, pkept (p_dflt K r) T) by (intros; unfold pkept; cbn; auto).
  assert (UN : forall u a r T, pkept (p_un K u a r) T)
    by (intros; apply kept_wr; intros; destruct u; reflexivity).
  assert (BI : forall u a a2 r T, pkept (p_bin K u a a2 r) T)
    by (intros; apply kept_wr; intros; destruct u; reflexivity).
  assert (CS : forall c cv a r T, pkept (p_cst K c cv a r) T).
  { intros; apply kept_wr; intros. destruct c0; cbn;
      repeat match goal with |- context [if ?e then _ else _] => destruct e end; reflexivity. }
  assert (CP : forall a r T, pkept (p_copy K a r) T) by (intros; unfold pkept; cbn; auto).
  destruct c; cbn [keepable] in H; try contradiction; cbn [prims]; try (apply KN);
    repeat match goal with
    | |- forall p, In p (if ?e then _ else _) -> _ => destruct e eqn:?
    | |- forall p, In p (match ?k with Fresh _ => _ | Temp => _ end) -> _ => destruct k
    end;
    intros q Hq T; cbn [In] in Hq;
    repeat match type of Hq with
    | _ \/ _ => destruct Hq as [<-|Hq]
    | In _ (_ ++ _) => apply in_app_or in Hq as [Hq|Hq]; cbn [In] in Hq
    end; try contradiction Hq; auto;
    try (unfold pkept; cbn; auto; fail).
  all: try (apply kept_wr; intros T1; cbn;
    repeat match goal with |- context [match ?e with _ => _ end] => destruct e end; reflexivity).
  - apply kept_wr. intros. destruct e; reflexivity.
  - apply kept_wr. intros. destruct e; reflexivity.
  - exfalso. apply andb_prop in Heqb0 as [E E3]. apply andb_prop in E as [E1 E2].
    apply negb_true_iff, Nat.eqb_neq in E2, E3. destruct H as [->|[H|H]]; congruence.
  - destruct k; cbn in Hq; [destruct Hq as [<-|[]]; auto|contradiction].
  - clear - Hq UN BI CS DF. destruct f; cbn [help_prims app In] in Hq;
      repeat match type of Hq with _ \/ _ => destruct Hq as [<-|Hq] end;
      try contradiction Hq; auto.
  - unfold pkept; cbn. destruct (eq0 K c); [|destruct (eq1 K c)]; auto.
  - unfold pkept; cbn. destruct e; auto.
  - unfold pkept; cbn. destruct e; auto.
Qed.

Fixpoint keep_prog (ok : call K -> Prop) (p : prog K) : Prop :=
  match p with
  | Ret _ => True
  | Do c p' => ok c /\ keep_prog ok p'
  | If _ _ pt pf => keep_prog ok pt /\ keep_prog ok pf
  end.

Lemma okprims_end ps x (l : list (prim K)) k : forall s s' D, okprims ps x l s D k ->
  rprims ps x l s = Some s' -> exists D', k s' D'.
Proof.
  induction l as [|p l IH]; intros s s' D H E; cbn in *.
  - injection E as <-. eauto.
  - destruct H as [_ H]. destruct (rprim ps x p s); [|discriminate]. eauto.
Qed.

Lemma run_path (L : Laws K) ps x p : forall s s' D,
  okrun ps x p s D -> keep_prog keepable p -> run ps x p s = Some s' ->
  exists t, sops s' = sops s ++ t /\ vpath ps x t (vof s) (vof s').
Proof.
  induction p as [|c p IH|r a pt IHt pf IHf]; intros s s' D O Kp H; cbn [run okrun keep_prog] in *.
  - injection H as <-. exists []. rewrite app_nil_r. split; auto. constructor.
  - destruct O as [C O]. destruct Kp as [Kc Kp].
    destruct (rprims ps x (prims c) s) as [s1|] eqn:E; [|discriminate].
    destruct (@prims_path ps x (prims c) s s1) as (t1 & O1 & P1); auto.
    { now apply call_good. } { now apply call_kept. }
    destruct (okprims_end _ _ _ _ _ _ O E) as [D' O'].
    destruct (IH _ _ _ O' Kp H) as (t2 & O2 & P2).
    exists (t1 ++ t2). rewrite O2, O1, app_assoc. split; auto. eapply vpath_app; eauto.
  - destruct O as (_ & _ & O).
    assert (G : exists t, sops s' = sops (rcmp r a s) ++ t /\
      vpath ps x t (vof (rcmp r a s)) (vof s')).
    { destruct (rel_val K r (sT s a)); [eapply IHt|eapply IHf]; eauto; tauto. }
    destruct G as (t & O1 & P1).
    exists (Plain (Cmp K (rel_op K r (sT s a)) a) :: t). split.
    + rewrite O1. cbn. now rewrite <- app_assoc.
    + apply vp_cons with (pk := []); [reflexivity|].
      unfold vof in *. unfold vnext. cbn in *. rewrite Nat.add_0_r. exact P1.
Qed.

(* The Taylor stack when trace_off has been called with keep: keep_stock,
   valuetape.cpp:153-175, writes store[last], ..., store[0]. *)
Definition final_stack (last : nat) (s : rec K) : list val :=
  rev (map (sT s) (down last 0)) ++ sk s.

(* s: the traced program at any moment; p: the rest of it; s': at its end.
   Undoing what was recorded from s on gives back the values of s. *)
Theorem C16_after_recording (L : Laws K) last ps x p (s s' : rec K) D t u gT gA gz :
  okrun ps x p s D -> keep_prog keepable p ->
  run ps x p s = Some s' -> sops s' = sops s ++ t ->
  undoable last ps x t (si s) (sT s) ->
  let r := fos_reverse u (si s') (length (sy s')) gT gA gz (final_stack last s')
             (t ++ [Plain (DeathNot K 0 last)]) in
  (forall l, l <= last -> rT r l = sT s l) /\ rk r = sk s /\
  rii r = si s /\ rid r = length (sy s).
Proof.
  intros O Kp H Ot U. cbv zeta.
  destruct (@run_path L ps x p s s' D O Kp H) as (t' & O' & P).
  rewrite Ot in O'. apply app_inv_head in O'. subst t'.
  assert (P2 : vpath ps x (t ++ [Plain (DeathNot K 0 last)]) (vof s)
     (mkV (sT s') (si s') (length (sy s')) (final_stack last s'))).
  { eapply vpath_app; [exact P|]. apply vp_cons with (pk := map (sT s') (down last 0)).
    - cbn. now rewrite Nat.sub_0_r.
    - unfold vnext, vof, final_stack. cbn. rewrite Nat.add_0_r. constructor. }
  destruct (undoable_ok _ _ _ _ _ _ U) as [Tr Bd]. cbv zeta in Tr, Bd.
  assert (EX : false = true -> forall a c : val,
     sub K (add K a c) c = a /\ add K (sub K a c) c = a) by discriminate.
  destruct (restore_path EX u gT gA gz P2 Tr) as (Q1 & Q2 & Q3 & Q4).
  cbn [vi vT vk vy vof] in *. unfold fos_reverse.
  split; [|split; [exact Q1|split; [exact Q2|exact Q3]]].
  intros l Hl. apply Q4, Bd, Hl.
Qed.

(* Programs without advectors *)
Definition scalar (c : call K) : Prop :=
  match c with
  | CVecCopy _ _ _ _ | CVecAxpy _ _ _ _ _ _ | CFrexp _ _ _
  | CSubscript _ _ _ _ _ | CSubRef _ _ _ _ _ | CRefOut _ _ _ | CRefConst _ _ _
  | CRefAssign _ _ _ | CRefInc _ _ | CRefDec _ _ | CRefInd _ _ | CRefEqD _ _ _ _
  | CRefEqA _ _ _ _ | CRefCond _ _ _ _ _ | CRefCondS _ _ _ _ | CRefCondEq _ _ _ _ _
  | CRefCondEqS _ _ _ _ => False
  | CEqProd _ _ _ a b y fuse => fuse = false \/ y = a \/ y = b
  | _ => True
  end.
Lemma scalar_keepable c : scalar c -> keepable c.
Proof. destruct c; cbn; tauto. Qed.
Lemma keep_prog_mono (P Q : call K -> Prop) p : (forall c, P c -> Q c) -> keep_prog P p -> keep_prog Q p.
Proof. intros H. induction p; cbn; intuition. Qed.

Definition pundone (p : prim K) : Prop := forall T, exists b, p_op p T = [Plain b] /\ undone b.
Lemma call_undone c : scalar c -> forall p, In p (prims c) -> pundone p.
Proof.
  intros H.
  assert (DF : forall r, pundone (p_dflt K r)) by (intros r T; eexists; split; [reflexivity|exact I]).
  assert (KN : forall k l, (forall p, In p l -> pundone p) -> forall p, In p (knew K k ++ l) -> pundone p).
  { intros [r|] l Hl p Hp; cbn in Hp; auto. destruct Hp as [<-|Hp]; auto. }
  assert (UN : forall u a r, pundone (p_un K u a r))
    by (intros u a r T; eexists; split; [reflexivity|destruct u; exact I]).
  assert (BI : forall u a a2 r, pundone (p_bin K u a a2 r))
    by (intros u a a2 r T; eexists; split; [reflexivity|destruct u; exact I]).
  assert (CS : forall c cv a r, pundone (p_cst K c cv a r)).
  { intros c0 cv a r T; eexists; split; [reflexivity|]. destruct c0; cbn;
      repeat match goal with |- context [if ?e then _ else _] => destruct e end; exact I. }
  assert (CP : forall a r, pundone (p_copy K a r)) by (intros a r T; eexists; split; [reflexivity|exact I]).
  destruct c; cbn [scalar] in H; try contradiction; cbn [prims]; try (apply KN);
    repeat match goal with
    | |- forall p, In p (if ?e then _ else _) -> _ => destruct e eqn:?
    | |- forall p, In p (match ?k with Fresh _ => _ | Temp => _ end) -> _ => destruct k
    end;
    intros q Hq; cbn [In] in Hq;
    repeat match type of Hq with
    | _ \/ _ => destruct Hq as [<-|Hq]
    | In _ (_ ++ _) => apply in_app_or in Hq as [Hq|Hq]; cbn [In] in Hq
    end; try contradiction Hq; auto;
    try (intros T; cbn; eexists; split; [reflexivity|exact I]).
  - intros T; eexists; split; [reflexivity|].
    cbn. destruct (eq0 K c), (eq1 K c); exact I.
  - intros T; eexists; split; [reflexivity|]. destruct e; exact I.
  - intros T; eexists; split; [reflexivity|]. destruct e; exact I.
  - exfalso. apply andb_prop in Heqb0 as [E E3]. apply andb_prop in E as [E1 E2].
    apply negb_true_iff, Nat.eqb_neq in E2, E3. destruct H as [->|[H|H]]; congruence.
  - intros T; eexists; split; [reflexivity|]. destruct neg; exact I.
  - destruct k; cbn in Hq; [destruct Hq as [<-|[]]; auto|contradiction].
  - clear - Hq UN BI CS DF. destruct f; cbn [help_prims app In] in Hq;
      repeat match type of Hq with _ \/ _ => destruct Hq as [<-|Hq] end;
      try contradiction Hq; auto.
Qed.

Lemma rprims_undone ps x l : forall s s' : rec K, (forall p, In p l -> pundone p) ->
  rprims ps x l s = Some s' ->
  exists bs, sops s' = sops s ++ map (@Plain K) bs /\ Forall undone bs.
Proof.
  induction l as [|p l IH]; intros s s' Hp H; cbn in H.
  - injection H as <-. exists []. rewrite app_nil_r. auto.
  - destruct (rprim ps x p s) as [s1|] eqn:E; [|discriminate].
    destruct (IH s1 s') as (bs & O & F); auto. { intros; apply Hp; now right. }
    destruct (Hp p (or_introl eq_refl) (sT s)) as (b & Ob & Ub).
    unfold rprim in E. destruct (p_fail p (sT s)); [discriminate|]. injection E as <-.
    exists (b :: bs). split; [|now constructor].
    rewrite O. cbn. rewrite Ob, <- app_assoc. reflexivity.
Qed.
Lemma run_undone ps x p : forall s s' : rec K, keep_prog scalar p ->
  run ps x p s = Some s' ->
  exists bs, sops s' = sops s ++ map (@Plain K) bs /\ Forall undone bs.
Proof.
  induction p as [|c p IH|r a pt IHt pf IHf]; intros s s' Kp H; cbn [run keep_prog] in *.
  - injection H as <-. exists []. rewrite app_nil_r. auto.
  - destruct Kp as [Kc Kp].
    destruct (rprims ps x (prims c) s) as [s1|] eqn:E; [|discriminate].
    destruct (@rprims_undone ps x (prims c) s s1) as (b1 & O1 & F1); [now apply call_undone|exact E|].
    destruct (IH _ _ Kp H) as (b2 & O2 & F2).
    exists (b1 ++ b2). rewrite O2, O1, map_app, app_assoc. split; auto. now apply Forall_app.
  - assert (G : exists bs, sops s' = sops (rcmp r a s) ++ map (@Plain K) bs /\ Forall undone bs).
    { destruct (rel_val K r (sT s a)); [eapply IHt|eapply IHf]; eauto; tauto. }
    destruct G as (bs & O1 & F1).
    exists (Cmp K (rel_op K r (sT s a)) a :: bs). split.
    + rewrite O1. cbn. now rewrite <- app_assoc.
    + constructor; [exact I|auto].
Qed.
Lemma plain_undoable last ps x bs : Forall undone bs -> forall i T,
  undoable last ps x (map (@Plain K) bs) i T.
Proof.
  induction 1 as [|b bs Hb _ IH]; intros i T; cbn; auto.
  repeat split; auto; contradiction.
Qed.

(* Reversing right after recording with keep: after the last operation of the
   program has been undone, and the one before, ... *)
Theorem C16_scalar_recording (L : Laws K) last ps x p (s s' : rec K) D t u gT gA gz :
  okrun ps x p s D -> keep_prog scalar p ->
  run ps x p s = Some s' -> sops s' = sops s ++ t ->
  let r := fos_reverse u (si s') (length (sy s')) gT gA gz (final_stack last s')
             (t ++ [Plain (DeathNot K 0 last)]) in
  (forall l, l <= last -> rT r l = sT s l) /\ rk r = sk s /\
  rii r = si s /\ rid r = length (sy s).
Proof.
  intros O Kp H Ot. eapply C16_after_recording; eauto.
  - eapply keep_prog_mono; [|exact Kp]. apply scalar_keepable.
  - destruct (run_undone _ _ _ _ Kp H) as (bs & Ob & F).
    rewrite Ot in Ob. apply app_inv_head in Ob. subst t. now apply plain_undoable.
Qed.

(* A forward sweep with keep over the trace, and its reverse sweep. *)
Theorem C16_scalar_sweep T0 chunks last ps1 x1 p (s1 s2 : rec K) p2 ps x g m m1 u gT gA gz t2 :
  keep_prog scalar p2 ->
  (* s1: the recorder at some moment, p2: the rest of the program *)
  run ps1 x1 p (start T0 chunks) = Some s1 ->
  run ps1 x1 p2 s1 = Some s2 -> sops s2 = sops s1 ++ t2 ->
  zos_forward ps x g (finish last s2) = Done m -> (0 <= frc m)%Z ->
  (* m1: the sweep at the same moment *)
  zos_forward ps x g (sops s1) = Done m1 ->
  let r := fos_reverse u (fi m) (length (fy m)) gT gA gz (fk m)
             (t2 ++ [Plain (DeathNot K 0 last)]) in
  (forall l, l <= last -> rT r l = fT m1 l) /\ rk r = fk m1 /\
  rii r = fi m1 /\ rid r = length (fy m1).
Proof.
  intros Kp _ H Ot Z C Z1.
  unfold finish in Z. rewrite Ot, <- app_assoc in Z.
  eapply C16_restores; eauto.
  destruct (run_undone _ _ _ _ Kp H) as (bs & Ob & F).
  rewrite Ot in Ob. apply app_inv_head in Ob. subst t2. now apply plain_undoable.
Qed.
End Keep.
