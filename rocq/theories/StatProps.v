(* C40: the counts a trace reports are the counts of what was recorded, and the sweeps use
   exactly that many inputs, outputs, weights and results.
   C41: when trace_on and the sweeps are accepted. *)
Require Import List ZArith Bool Arith Lia FunctionalExtensionality.
Require Import Verif.AdModel Verif.AdRecord Verif.AdKeep Verif.StatModel.
Import ListNotations.
Set Implicit Arguments.

Section Props.
Variable K : Arith.
Notation val := (V K).
Notation mem := (mem K).
Notation bop := (bop K).
Notation op := (op K).

(* Specification: what an operation is *)
Definition declares_input (o : op) : bool :=
  match o with Plain (AssignInd _ _) | RefAssignInd _ _ => true | _ => false end.
Definition declares_output (o : op) : bool :=
  match o with Plain (AssignDep _ _) => true | _ => false end.
Definition is_fabs (o : op) : bool :=
  match o with Plain (AbsVal _ _ _ _) => true | _ => false end.
Definition is_fused_product (o : op) : bool :=
  match o with Plain (EqPlusProd _ _ _ _) | Plain (EqMinProd _ _ _ _) => true | _ => false end.
Definition how_many (f : op -> bool) (t : list op) : nat := length (filter f t).

(* guard: adolc_vec_dot and adolc_vec_axpy (see the refutation) *)
Definition no_vec_product (o : op) : Prop :=
  match o with Plain (VecDot _ _ _ _ _) | Plain (VecAxpy _ _ _ _ _ _) => False | _ => True end.

Lemma counts_app nmm t1 t2 c : counts nmm (t1 ++ t2) c = counts nmm t2 (@counts K nmm t1 c).
Proof. unfold counts. apply fold_left_app. Qed.

Lemma counts_at nmm t : Forall no_vec_product t -> forall c,
  cInds (counts nmm t c) = cInds c + how_many declares_input t /\
  cDeps (counts nmm t c) = cDeps c + how_many declares_output t /\
  cProds (counts nmm t c) = cProds c + how_many is_fused_product t /\
  cSw (counts nmm t c) = cSw c + (if nmm then how_many is_fabs t else 0).
Proof.
  induction 1 as [|o t Ho _ IH]; intros c.
  - cbn. destruct nmm; repeat split; unfold how_many; cbn; lia.
  - cbn [counts fold_left]. destruct (IH (count_op nmm o c)) as (A & B & C & D).
    unfold counts in *. rewrite A, B, C, D. unfold how_many. cbn [filter].
    destruct o; try (destruct b); try destruct Ho; cbn; destruct nmm; cbn; repeat split; lia.
Qed.

(* The counts reported after trace_off. *)
Theorem C40_reported nmm t : Forall no_vec_product t ->
  let st := @counts K nmm t zero_ctr in
  cInds st = how_many declares_input t /\ cDeps st = how_many declares_output t /\
  cProds st = how_many is_fused_product t /\ cSw st = (if nmm then how_many is_fabs t else 0).
Proof. intros H. exact (counts_at nmm H zero_ctr). Qed.

(* ---------------------------------------------------------------- *)
(* forward sweeps                                                     *)

Lemma resolve_ind (T : mem) o : is_ind (resolve T o) = declares_input o.
Proof. destruct o; try destruct b; reflexivity. Qed.
Lemma resolve_dep (T T' : mem) o : length (out_of (resolve T o) T') = if declares_output o then 1 else 0.
Proof. destruct o; try destruct b; reflexivity. Qed.
Lemma count_ind nmm o c : cInds (@count_op K nmm o c) = cInds c + if declares_input o then 1 else 0.
Proof. destruct o; try destruct b; cbn; try destruct nmm; cbn; lia. Qed.
Lemma count_dep nmm o c : no_vec_product o ->
  cDeps (@count_op K nmm o c) = cDeps c + if declares_output o then 1 else 0.
Proof. intros H. destruct o; try destruct b; try destruct H; cbn; try destruct nmm; cbn; lia. Qed.

Lemma vcopy_push_len n : forall arg res q (T : mem), length (vcopy_push n arg res q T) = n.
Proof. induction n; intros; cbn; auto. Qed.
Lemma vaxpy_push_len n : forall arg a1 a2 res q (T : mem), length (vaxpy_push n arg a1 a2 res q T) = n.
Proof. induction n; intros; cbn; auto. Qed.
Lemma down_len a : forall b, length (down a b) = S a.
Proof. induction a; intros b; cbn; auto. Qed.

(* keep_stock always starts at location 0 *)
Definition stock_from_zero (o : op) : Prop := match o with Plain (DeathNot _ a1 _) => a1 = 0 | _ => True end.
Lemma count_tay nmm o c (T : mem) : stock_from_zero o ->
  cTays (@count_op K nmm o c) = cTays c + length (pushes (resolve T o) T).
Proof.
  intros H. destruct o; try destruct b; cbn; try destruct nmm; cbn;
    rewrite ?vcopy_push_len, ?vaxpy_push_len, ?map_length, ?down_len; try lia.
  all: cbn in H; subst; rewrite ?Nat.sub_0_r; lia.
Qed.

Lemma counts_mono nmm t : Forall no_vec_product t -> Forall stock_from_zero t -> forall c,
  cInds c <= cInds (@counts K nmm t c) /\ cDeps c <= cDeps (counts nmm t c) /\ cTays c <= cTays (counts nmm t c).
Proof.
  intros H. induction H as [|o t Ho _ IH]; intros S0 c; [cbn; lia|]. inversion S0; subst.
  cbn [counts fold_left]. destruct (IH H2 (count_op nmm o c)) as (A & B & C). unfold counts in *.
  rewrite count_ind in A. rewrite count_dep in B by assumption.
  rewrite (@count_tay nmm o c (fun _ => zero K)) in C by assumption. lia.
Qed.

Lemma zrun_counts nmm ps x t : Forall no_vec_product t -> Forall stock_from_zero t ->
  forall (s : fstate K) c m, zrun ps x t s = Done m ->
  cInds c = fi s -> cDeps c = length (fy s) -> cTays c = length (fk s) ->
  let st := counts nmm t c in
  (fi m <= cInds st /\ length (fy m) <= cDeps st /\ length (fk m) <= cTays st) /\
  ((0 <= frc m)%Z -> fi m = cInds st /\ length (fy m) = cDeps st /\ length (fk m) = cTays st).
Proof.
  intros H. induction H as [|o t Ho Ht IH]; intros S0 s c m Z E1 E2 E3; cbn [zrun counts fold_left] in *.
  - injection Z as <-. cbn. repeat split; lia.
  - inversion S0; subst. unfold zstep in Z. destruct (oob (fT s) o) eqn:Eo; [discriminate|].
    destruct (zabort (resolve (fT s) o) (fT s)) as [code|] eqn:Ea.
    + injection Z as <-. cbn [fi fy fk frc].
      destruct (counts_mono nmm Ht H2 (count_op nmm o c)) as (A & B & C). unfold counts in *.
      rewrite count_ind in A. rewrite count_dep in B by assumption.
      rewrite (@count_tay nmm o c (fun _ => zero K)) in C by assumption.
      split; [lia|]. intros Hc. exfalso. clear -Ea Hc.
      destruct (resolve (fT s) o); cbn [zabort] in Ea; try discriminate;
        match type of Ea with (if ?e then _ else _) = _ => destruct e end;
        try discriminate; injection Ea as <-; lia.
    + apply (IH H2 _ (count_op nmm o c) m Z); cbn [fi fy fk].
      * rewrite count_ind, resolve_ind. destruct (declares_input o); lia.
      * rewrite count_dep by assumption. rewrite app_length, resolve_dep. lia.
      * rewrite (@count_tay nmm o c (fT s)) by assumption. rewrite app_length, rev_length. lia.
Qed.

(* A forward sweep never uses more independents or returns more dependents than the trace
   reports, nor keeps more values; when it does not stop early it uses exactly as many. *)
Theorem C40_forward_counts nmm ps x g t m : Forall no_vec_product t -> Forall stock_from_zero t ->
  zos_forward ps x g t = Done m ->
  let st := @counts K nmm t zero_ctr in
  (fi m <= cInds st /\ length (fy m) <= cDeps st /\ length (fk m) <= cTays st) /\
  ((0 <= frc m)%Z -> fi m = cInds st /\ length (fy m) = cDeps st /\ length (fk m) = cTays st).
Proof. intros H S0 Z. eapply zrun_counts; eauto. Qed.

(* It reads only the n entries of x the trace reports (any trace). *)
Lemma zval_reads ps (x x' : nat -> val) i b (T : mem) :
  (is_ind b = true -> x i = x' i) -> zval ps x i b T = zval ps x' i b T.
Proof. intros H. destruct b; try reflexivity. cbn [zval]. now rewrite H. Qed.
Lemma zrun_reads nmm ps x x' t : forall (s : fstate K) c, cInds c = fi s ->
  (forall i, i < cInds (counts nmm t c) -> x i = x' i) ->
  zrun ps x t s = zrun ps x' t s.
Proof.
  assert (mono : forall t c, cInds c <= cInds (@counts K nmm t c)).
  { induction t0 as [|o t0 IH]; intros c; cbn [counts fold_left]; [lia|].
    specialize (IH (count_op nmm o c)). unfold counts in *. rewrite count_ind in IH. lia. }
  induction t as [|o t IH]; intros s c E H; [reflexivity|]. cbn [zrun counts fold_left] in *.
  unfold zstep. destruct (oob (fT s) o); [reflexivity|]. destruct (zabort _ _); [reflexivity|].
  rewrite (@zval_reads ps x x').
  - apply IH with (c := count_op nmm o c); [|exact H]. cbn [fi]. rewrite count_ind, resolve_ind.
    destruct (declares_input o); lia.
  - rewrite resolve_ind. intros D. apply H. specialize (mono t (count_op nmm o c)).
    rewrite count_ind, D in mono. unfold counts in mono. lia.
Qed.
Theorem C40_forward_reads nmm ps x x' g t :
  (forall i, i < cInds (@counts K nmm t zero_ctr) -> x i = x' i) ->
  zos_forward ps x g t = zos_forward ps x' g t.
Proof. intros H. apply zrun_reads with (nmm := nmm) (c := zero_ctr); auto. Qed.

(* ---------------------------------------------------------------- *)
(* reverse sweeps                                                     *)

Lemma how_many_rev (f : op -> bool) t : length (filter f (rev t)) = length (filter f t).
Proof.
  induction t as [|o t IH]; [reflexivity|]. cbn [rev]. rewrite filter_app, app_length, IH. cbn.
  destruct (f o); cbn; lia.
Qed.
Definition b2n (b : bool) : nat := if b then 1 else 0.
Lemma rstep_counts u o (s : rstate K) :
  rii (rstep u o s) = rii s - b2n (declares_input o) /\ rid (rstep u o s) = rid s - b2n (declares_output o) /\
  (forall j, rii s <= j -> b2n (declares_input o) <= rii s -> rz (rstep u o s) j = rz s j).
Proof.
  unfold rstep. pose proof (resolve_ind (rT s) o) as R1. pose proof (resolve_dep (rT s) (rT s) o) as R2.
  destruct (rval (resolve (rT s) o) (rT s) (rA s) (rk s)) as [[T' A'] k'].
  destruct (resolve (rT s) o); cbn [is_ind out_of length] in R1, R2; rewrite <- R1;
    destruct (declares_output o); try discriminate; cbn [b2n rii rid rz];
    (split; [lia|split; [lia|]]); intros j Hj Hi; auto.
  unfold upd. destruct (Nat.eqb_spec j (rii s - 1)); [lia|reflexivity].
Qed.

Lemma rrun_counts u t : forall (s : rstate K),
  how_many declares_input t = rii s -> how_many declares_output t = rid s ->
  rii (rrun u t s) = 0 /\ rid (rrun u t s) = 0 /\ forall j, rii s <= j -> rz (rrun u t s) j = rz s j.
Proof.
  assert (G : forall r (s : rstate K), length (filter declares_input r) = rii s ->
    length (filter declares_output r) = rid s ->
    let s' := fold_left (fun s o => rstep u o s) r s in
    rii s' = 0 /\ rid s' = 0 /\ forall j, rii s <= j -> rz s' j = rz s j).
  2: { intros s E1 E2. apply (G (rev t) s); rewrite how_many_rev; assumption. }
  cbv zeta. induction r as [|o r IH]; intros s E1 E2; cbn [fold_left filter] in *.
  - cbn in *. auto.
  - destruct (rstep_counts u o s) as (A & B & C).
    assert (E1' : length (filter declares_input r) = rii (rstep u o s)).
    { rewrite A. destruct (declares_input o); cbn in *; lia. }
    assert (E2' : length (filter declares_output r) = rid (rstep u o s)).
    { rewrite B. destruct (declares_output o); cbn in *; lia. }
    destruct (IH _ E1' E2') as (P & Q & R). split; [exact P|split; [exact Q|]].
    intros j Hj. rewrite R by lia. apply C; [exact Hj|]. destruct (declares_input o); cbn in *; lia.
Qed.

(* A reverse sweep called with the reported counts assigns results[0..n-1] and no other entry,
   and ends having used every weight once. *)
Theorem C40_reverse_counts nmm u gT gA gz k t : Forall no_vec_product t ->
  let st := @counts K nmm t zero_ctr in
  let r := fos_reverse u (cInds st) (cDeps st) gT gA gz k t in
  rii r = 0 /\ rid r = 0 /\ forall j, cInds st <= j -> rz r j = gz j.
Proof.
  intros H. cbv zeta. destruct (C40_reported nmm H) as (A & B & _). unfold fos_reverse.
  apply (@rrun_counts u t (mkR gT gA k gz _ _)); cbn [rii rid]; congruence.
Qed.

Lemma rstep_weights (u u' : nat -> val) o (s : rstate K) :
  (declares_output o = true -> u (rid s - 1) = u' (rid s - 1)) -> rstep u o s = rstep u' o s.
Proof.
  intros H. unfold rstep. pose proof (resolve_dep (rT s) (rT s) o) as R2.
  destruct (rval (resolve (rT s) o) (rT s) (rA s) (rk s)) as [[T' A'] k'].
  destruct (resolve (rT s) o); cbn [out_of length] in R2; try reflexivity.
  destruct (declares_output o); [|discriminate]. now rewrite H.
Qed.
Theorem C40_reverse_weights nmm (u u' : nat -> val) gT gA gz k t : Forall no_vec_product t ->
  let st := @counts K nmm t zero_ctr in
  (forall d, d < cDeps st -> u d = u' d) ->
  fos_reverse u (cInds st) (cDeps st) gT gA gz k t = fos_reverse u' (cInds st) (cDeps st) gT gA gz k t.
Proof.
  intros H. cbv zeta. intros U. destruct (C40_reported nmm H) as (_ & B & _).
  remember (cDeps (counts nmm t zero_ctr)) as M eqn:EM. clear EM.
  assert (G : forall r (s : rstate K), length (filter declares_output r) = rid s -> rid s <= M ->
     fold_left (fun s o => rstep u o s) r s = fold_left (fun s o => rstep u' o s) r s).
  { induction r as [|o r IH]; intros s E L; cbn [fold_left filter] in *; [reflexivity|].
    rewrite (@rstep_weights u u').
    - destruct (rstep_counts u' o s) as (_ & R & _). apply IH; rewrite R; destruct (declares_output o); cbn in *; lia.
    - intros D. apply U. rewrite D in E. cbn in E. lia. }
  unfold fos_reverse, rrun. apply G; cbn [rid]; [|lia].
  rewrite how_many_rev. exact (eq_sym B).
Qed.

(* ---------------------------------------------------------------- *)
(* recording                                                          *)

Definition vec_product_call (c : call K) : bool :=
  match c with CVecDot _ _ _ _ _ | CVecAxpy _ _ _ _ _ _ => true | _ => false end.
Fixpoint without_vec_products (p : prog K) : Prop :=
  match p with
  | Ret _ => True
  | Do c p' => vec_product_call c = false /\ without_vec_products p'
  | If _ _ pt pf => without_vec_products pt /\ without_vec_products pf
  end.

(* every record puts at most one operation on the tape, and counts with it *)
Definition counted (p : prim K) : Prop := forall T c nmm,
  Forall no_vec_product (p_op p T) /\ Forall stock_from_zero (p_op p T) /\
  cInds (@counts K nmm (p_op p T) c) = cInds c + (if p_ind p then 1 else 0) /\
  cDeps (counts nmm (p_op p T) c) = cDeps c + length (p_dep p T) /\
  cTays (counts nmm (p_op p T) c) = cTays c + length (p_keep p T).

Ltac cnt :=
  let T := fresh "T" in let c := fresh "c" in let nmm := fresh "nmm" in
  intros T c nmm; unfold p_dflt, p_copy, p_const; cbn [p_op p_ind p_dep p_keep wr wref];
  repeat match goal with |- context [if ?e then _ else _] =>
    match e with nmm => fail 1 | _ => destruct e end end;
  cbn; rewrite ?repeat_length, ?map_length; destruct nmm; cbn;
  repeat split; auto; try (repeat constructor); try lia.

Lemma counted_dflt r : counted (p_dflt K r).  Proof. cnt. Qed.
Lemma counted_un u a r : counted (p_un K u a r).  Proof. unfold p_un; destruct u; cnt. Qed.
Lemma counted_bin b a1 a2 r : counted (p_bin K b a1 a2 r).  Proof. unfold p_bin; destruct b; cnt. Qed.
Lemma counted_cst c v a r : counted (p_cst K c v a r).
Proof. unfold p_cst, cst_op. destruct c; cnt. Qed.
Lemma counted_copy a r : counted (p_copy K a r).  Proof. cnt. Qed.
Hint Resolve counted_dflt counted_un counted_bin counted_cst counted_copy : cnt.

Lemma counted_new k : Forall counted (knew K k).
Proof. destruct k; cbn; auto with cnt. Qed.
Lemma counted_help f a t : Forall counted (help_prims K f a t).
Proof.
  destruct f; cbn [help_prims app]; repeat (first [apply Forall_nil | apply Forall_cons; [auto with cnt|]]);
    try (cnt; fail); try (unfold p_const; cnt).
Qed.
Lemma counted_prims c : vec_product_call c = false -> Forall counted (prims c).
Proof.
  destruct c; cbn [vec_product_call]; intros H; try discriminate; cbn [prims];
    repeat match goal with
    | |- Forall _ (knew _ _ ++ _) => apply Forall_app; split; [apply counted_new|]
    | |- Forall _ (help_prims _ _ _ _ ++ _) => apply Forall_app; split; [apply counted_help|]
    | |- Forall _ (if ?e then _ else _) => destruct e
    | |- Forall _ (match ?k with Fresh _ => _ | Temp => _ end) => destruct k
    | |- Forall _ (_ :: _) => constructor
    | |- Forall _ [] => constructor
    end; auto with cnt; try (destruct e; cnt); try (destruct neg; cnt); cnt.
Qed.

Definition agrees (nmm : bool) (s : rec K) : Prop :=
  Forall no_vec_product (sops s) /\ Forall stock_from_zero (sops s) /\
  cInds (counts nmm (sops s) zero_ctr) = si s /\ cDeps (counts nmm (sops s) zero_ctr) = length (sy s) /\
  cTays (counts nmm (sops s) zero_ctr) = length (sk s).

Lemma rprim_agrees nmm ps x p (s s' : rec K) : counted p -> rprim ps x p s = Some s' -> agrees nmm s -> agrees nmm s'.
Proof.
  intros C H (A1 & A2 & A3 & A4 & A5). unfold rprim in H. destruct (p_fail p (sT s)); [discriminate|].
  injection H as <-. destruct (C (sT s) (counts nmm (sops s) zero_ctr) nmm) as (B1 & B2 & B3 & B4 & B5).
  unfold agrees. cbn [sops si sy sk]. rewrite counts_app, B3, B4, B5, !app_length, rev_length.
  rewrite !Forall_app. repeat split; auto; try lia. destruct (p_ind p); lia.
Qed.
Lemma rprims_agrees nmm ps x l : Forall counted l -> forall s s' : rec K,
  rprims ps x l s = Some s' -> agrees nmm s -> agrees nmm s'.
Proof.
  induction 1 as [|p l Hp _ IH]; intros s s' H A; cbn [rprims] in H; [now injection H as <-|].
  destruct (rprim ps x p s) as [s1|] eqn:E; [|discriminate]. eapply IH; eauto. eapply rprim_agrees; eauto.
Qed.
Lemma run_agrees nmm ps x p : forall s s' : rec K, without_vec_products p ->
  run ps x p s = Some s' -> agrees nmm s -> agrees nmm s'.
Proof.
  induction p as [|c p IH|r a pt IHt pf IHf]; intros s s' W H A; cbn [run without_vec_products] in *.
  - now injection H as <-.
  - destruct W as [W1 W2]. destruct (rprims ps x (prims c) s) as [s1|] eqn:E; [|discriminate].
    eapply IH; [exact W2|exact H|]. eapply rprims_agrees; [apply counted_prims; exact W1|exact E|exact A].
  - destruct W as [W1 W2].
    assert (B : agrees nmm (rcmp r a s)).
    { destruct A as (A1 & A2 & A3 & A4 & A5). unfold agrees, rcmp. cbn [sops si sy sk].
      rewrite counts_app. cbn [counts fold_left count_op]. rewrite !Forall_app. repeat split; auto; repeat constructor. }
    destruct (rel_val K r (sT s a)); eauto.
Qed.
Lemma start_agrees nmm T0 chunks : agrees nmm (@start K T0 chunks).
Proof.
  assert (G : forall chunks from, Forall no_vec_product (@stock_ops K T0 chunks from) /\
     Forall stock_from_zero (stock_ops T0 chunks from) /\
     counts nmm (stock_ops T0 chunks from) zero_ctr = zero_ctr).
  { induction chunks0 as [|n cs IH]; intros from; cbn [stock_ops]; [repeat split; constructor|].
    destruct (IH (from + n)) as (A & B & C). repeat split; try (constructor; [exact I|assumption]). exact C. }
  destruct (G chunks 0) as (A & B & C). unfold agrees, start. cbn [sops si sy sk]. rewrite C. repeat split; auto.
Qed.

(* The counts reported for a recorded program: independents = inputs it declared,
   dependents = outputs it gave, Taylor values = what a recording with keep stores. *)
Theorem C40_recording nmm T0 chunks last ps x p s : without_vec_products p ->
  run ps x p (start T0 chunks) = Some s ->
  let st := @counts K nmm (finish last s) zero_ctr in
  cInds st = si s /\ cDeps st = length (sy s) /\ cTays st = length (final_stack last s) /\
  Forall no_vec_product (finish last s) /\ Forall stock_from_zero (finish last s).
Proof.
  intros W R. destruct (@run_agrees nmm ps x p _ _ W R (start_agrees nmm T0 chunks)) as (A1 & A2 & A3 & A4 & A5).
  unfold finish. rewrite counts_app.
  generalize dependent (counts nmm (sops s) zero_ctr). intros c A3 A4 A5.
  cbn [counts fold_left count_op add_tays cInds cDeps cTays].
  rewrite A3, A4, A5. unfold final_stack. rewrite app_length, rev_length, map_length, down_len.
  rewrite !Forall_app. repeat split; auto; try lia; repeat constructor.
Qed.

(* ---------------------------------------------------------------- *)
(* Histories of a tape                                                *)

(* The operations of the last finished trace, read off the history: what is recorded between
   the last accepted trace_on that is followed by an accepted trace_off, and that trace_off. *)
Inductive phase := Idle | Recording (ops : list op).
Fixpoint finished (h : list (cmd K)) (bs : list bool) (p : phase) (fin : list op) : phase * list op :=
  match h, bs with
  | c :: h', b :: bs' =>
      match c, b, p with
      | TraceOn _, true, _ => finished h' bs' (Recording []) fin
      | Record_op o, _, Recording t => finished h' bs' (Recording (t ++ [o])) fin
      | TraceOff _ last, true, Recording t => finished h' bs' Idle (t ++ [Plain (DeathNot K 0 last)])
      | _, _, _ => finished h' bs' p fin
      end
  | _, _ => (p, fin)
  end.

Definition inv (nmm : bool) (s : tape K) (p : phase) (fin : list op) : Prop :=
  tnmm s = nmm /\ tstat s = counts nmm fin zero_ctr /\
  match p with
  | Idle => tmode s <> WriteAccess
  | Recording t => tmode s = WriteAccess /\ tcnt s = counts nmm t zero_ctr
  end.
Lemma exec_inv nmm h : forall s p fin, inv nmm s p fin ->
  let (s', bs) := exec h s in let (p', fin') := finished h bs p fin in inv nmm s' p' fin'.
Proof.
  induction h as [|c h IH]; intros s p fin I; [exact I|]. cbn [exec].
  destruct (step c s) as [s1 b] eqn:E1. destruct (exec h s1) as [s2 bs] eqn:E2. cbn [finished].
  assert (G : forall p1 fin1, inv nmm s1 p1 fin1 -> let (p', fin') := finished h bs p1 fin1 in inv nmm s2 p' fin').
  { intros p1 fin1 I1. specialize (IH s1 p1 fin1 I1). rewrite E2 in IH. exact IH. }
  destruct I as (N & S & P).
  destruct c as [|o|last|n m]; cbn [step] in E1.
  - destruct (tmode s) eqn:M; injection E1 as <- <-; apply G.
    + repeat split; auto.
    + unfold inv. rewrite M. auto.
    + unfold inv. rewrite M. auto.
  - destruct p as [|t].
    + replace (match b with true => _ | false => _ end) with (finished h bs Idle fin) by (destruct b; reflexivity).
      apply G. destruct (tmode s) eqn:M; injection E1 as <- <-; repeat split; auto; congruence.
    + replace (match b with true => _ | false => _ end) with (finished h bs (Recording (t ++ [o])) fin)
        by (destruct b; reflexivity).
      apply G. destruct P as [P1 P2]. rewrite P1 in E1. injection E1 as <- <-.
      repeat split; auto. cbn [tcnt]. rewrite counts_app, <- P2, N. reflexivity.
  - destruct p as [|t].
    + destruct (tmode s) eqn:M; injection E1 as <- <-; try (now destruct P); apply G; repeat split; auto; congruence.
    + destruct P as [P1 P2]. rewrite P1 in E1. injection E1 as <- <-. apply G.
      split; [exact N|split; [|discriminate]]. cbn [tstat]. rewrite counts_app, <- P2.  reflexivity.
  - replace (match b with true => _ | false => _ end) with (finished h bs p fin) by (destruct b, p; reflexivity).
    apply G. destruct (tmode s) eqn:M.
    + destruct p as [|t]; [|destruct P; congruence].
      destruct (_ && _); injection E1 as <- <-; repeat split; auto; discriminate.
    + destruct p as [|t]; [|destruct P; congruence].
      destruct (_ && _); injection E1 as <- <-; repeat split; auto; discriminate.
    + injection E1 as <- <-. unfold inv. destruct p as [|t]; rewrite ?M in *; tauto.
Qed.

(* After any history of calls, accepted or not, on a tape: the reported counts are those of
   the last finished trace, and a sweep with n, m is accepted if and only if no trace is open
   and n, m are the reported numbers. *)
Theorem C40_history nmm (h : list (cmd K)) :
  let (s, bs) := exec h (fresh K nmm) in
  let (p, fin) := finished h bs Idle [] in
  tstat s = counts nmm fin zero_ctr /\
  (forall n m, snd (step (Sweep K n m) s) = true <->
     p = Idle /\ n = cInds (counts nmm fin zero_ctr) /\ m = cDeps (counts nmm fin zero_ctr)).
Proof.
  pose proof (@exec_inv nmm h (fresh K nmm) Idle []) as G.
  destruct (exec h (fresh K nmm)) as [s bs]. destruct (finished h bs Idle []) as [p fin].
  destruct G as (N & S & P); [repeat split; auto; discriminate|].
  split; [exact S|]. intros n m. cbn [step].
  destruct (tmode s) eqn:M; cbn [snd].
  - destruct p as [|t]; [|destruct P; congruence]. rewrite S.
    destruct (Nat.eqb_spec m (cDeps (counts nmm fin zero_ctr))), (Nat.eqb_spec n (cInds (counts nmm fin zero_ctr)));
      cbn; split; intros Q; try discriminate; try tauto; destruct Q as (_ & -> & ->); congruence.
  - destruct p as [|t]; [|destruct P; congruence]. rewrite S.
    destruct (Nat.eqb_spec m (cDeps (counts nmm fin zero_ctr))), (Nat.eqb_spec n (cInds (counts nmm fin zero_ctr)));
      cbn; split; intros Q; try discriminate; try tauto; destruct Q as (_ & -> & ->); congruence.
  - split; [discriminate|]. intros (-> & _). now destruct P.
Qed.

(* ---------------------------------------------------------------- *)
(* C41                                                                *)

Definition rejected_sweep (c : cmd K) (b : bool) : bool :=
  match c, b with Sweep _ _ _, false => true | _, _ => false end.
Fixpoint rejections (h : list (cmd K)) (bs : list bool) : bool :=
  match h, bs with c :: h', b :: bs' => rejected_sweep c b || rejections h' bs' | _, _ => false end.
Lemma exec_modes h : forall s, tmode s <> ReadAccess ->
  let (s', bs) := exec h s in rejections h bs = false -> tmode s' <> ReadAccess.
Proof.
  induction h as [|c h IH]; intros s M; [intros _; exact M|]. cbn [exec].
  destruct (step c s) as [s1 b] eqn:E1. specialize (IH s1).
  destruct (exec h s1) as [s2 bs]. cbn [rejections]. intros R. apply orb_false_iff in R. destruct R as [R1 R2].
  apply IH; [|exact R2].
  destruct c as [|o|last|n m]; cbn [step] in E1; destruct (tmode s) eqn:M1; try congruence.
  all: try (injection E1 as <- <-; cbn; congruence).
  destruct (_ && _); injection E1 as <- <-; cbn in *; congruence.
Qed.

(* In a history without rejected sweeps, trace_on is accepted if and only if no trace is open
   on the tape. *)
Theorem C41_trace_on_accepted nmm (h : list (cmd K)) :
  let (s, bs) := exec h (fresh K nmm) in
  rejections h bs = false ->
  (snd (step (TraceOn K) s) = true <-> fst (finished h bs Idle []) = Idle) /\
  (forall last, snd (step (TraceOff K last) s) = true <-> fst (finished h bs Idle []) <> Idle).
Proof.
  pose proof (@exec_inv nmm h (fresh K nmm) Idle []) as G.
  pose proof (@exec_modes h (fresh K nmm)) as Mo.
  destruct (exec h (fresh K nmm)) as [s bs]. destruct (finished h bs Idle []) as [p fin]. cbn [fst].
  destruct G as (N & S & P); [repeat split; auto; discriminate|].
  intros R. specialize (Mo ltac:(discriminate) R). cbn [step].
  destruct p as [|t].
  - destruct (tmode s); try congruence. cbn. repeat split; try congruence.
  - destruct P as [P _]. rewrite P. cbn. repeat split; congruence.
Qed.

(* A sweep that was rejected because of its arguments blocks the tape: every later trace_on
   fails, until a sweep is accepted. *)
Theorem C41_rejected_sweep_refuted (s : tape K) n m h :
  tmode s = NoMode -> snd (step (Sweep K n m) s) = false ->
  (forall c, In c h -> c = TraceOn K \/ exists n' m', c = Sweep K n' m' /\ (n' <> cInds (tstat s) \/ m' <> cDeps (tstat s))) ->
  Forall (eq false) (snd (exec h (fst (step (Sweep K n m) s)))).
Proof.
  intros M R H.
  assert (G : tmode (fst (step (Sweep K n m) s)) = ReadAccess /\ tstat (fst (step (Sweep K n m) s)) = tstat s).
  { cbn [step] in *. rewrite M in *. destruct (_ && _); [discriminate|auto]. }
  destruct G as [G1 G2]. revert G1 G2. generalize (fst (step (Sweep K n m) s)) as s0. clear M R.
  induction h as [|c h IH]; intros s0 G1 G2; [constructor|]. cbn [exec].
  destruct (step c s0) as [s1 b] eqn:E1.
  assert (Q : b = false /\ tmode s1 = ReadAccess /\ tstat s1 = tstat s).
  { destruct (H c (or_introl eq_refl)) as [->|(n' & m' & -> & Hn)]; cbn [step] in E1; rewrite G1 in E1.
    - injection E1 as <- <-. auto.
    - rewrite G2 in E1. destruct (Nat.eqb_spec m' (cDeps (tstat s))), (Nat.eqb_spec n' (cInds (tstat s))); cbn in E1;
        injection E1 as <- <-; auto. destruct Hn; contradiction. }
  destruct Q as (-> & Q1 & Q2).
  specialize (IH ltac:(intros c' Hc'; apply H; now right) s1 Q1 Q2).
  destruct (exec h s1) as [s2 bs]. cbn [snd] in *. constructor; auto.
Qed.
End Props.

(* ------------------------------------------------------------------ *)
(* adolc_vec_dot: the number of dependents is wrong                     *)
From Flocq Require Import IEEE754.BinarySingleNaN.
Require Import Verif.Binary64 Verif.AdSelect.
Section Double.
Variable M : Libm.
Let K := binary64 M.
(* y = x0*x0 + x1*x1 (adolc_vec_dot of (x0, x1) with itself): one dependent, 5 reported; the
   sweeps reject m = 1, and called with m = 5 the reverse sweep takes the weight of y from
   u[4]. *)
Definition dot_prog : prog K :=
  Do (CInd K 0) (Do (CInd K 1) (Do (CVecDot K 2 0 0 2) (Do (CDep K 2) (Ret K)))).
Definition u04 : nat -> V K := fun d => if Nat.eqb d 0 then b1 else bz.
Theorem C40_vec_dot_refuted : forall (ps gz : nat -> V K) (g gT gA : mem K),
  exists s m, @run K ps (fun _ => b1) dot_prog (@start K (fun _ => bz) []) = Some s /\
  @zos_forward K ps (fun _ => b1) g (finish 2 s) = Done m /\
  length (sy s) = 1 /\ length (fy m) = 1 /\ cDeps (counts false (finish 2 s) zero_ctr) = 5 /\
  let r := @fos_reverse K u04 2 5 gT gA gz (fk m) (finish 2 s) in
  B2SF (rz r 0 : b64) = B2SF bz /\ rid r = 4.
Proof.
  intros ps gz g gT gA.
  apply (@witness K (run ps (fun _ => b1) dot_prog (@start K (fun _ => bz) []))
    (fun s => zos_forward ps (fun _ => b1) g (finish 2 s))
    (fun s m => length (sy s) = 1 /\ length (fy m) = 1 /\ cDeps (counts false (finish 2 s) zero_ctr) = 5 /\
  let r := @fos_reverse K u04 2 5 gT gA gz (fk m) (finish 2 s) in
  B2SF (rz r 0 : b64) = B2SF bz /\ rid r = 4)).
  vm_compute. repeat split; reflexivity.
Qed.

(* the hypotheses of the theorems are met: a program with two inputs, a branch, a fused
   product, sin and fabs; recorded twice on one tape, with a rejected sweep in between *)
Definition ex40 : prog K :=
  Do (CInd K 0) (Do (CInd K 1) (Do (CSin K (Fresh 2) 0 3) (Do (CEqProd K false (Fresh 4) 0 1 2 true)
  (Do (CUn K UAbs (Fresh 5) 2) (If RGt 5 (Do (CDep K 5) (Ret K)) (Ret K)))))).
Lemma C40_met : without_vec_products ex40.
Proof. cbn. tauto. Qed.
Lemma C40_C41_histories :
  let o := Plain (AssignInd K 0) in let d := Plain (AssignDep K 0) in
  snd (exec [TraceOn K; Record_op o; Record_op d; TraceOff K 0; Sweep K 1 1;
             TraceOn K; Record_op o; Record_op o; Record_op d; TraceOff K 0; Sweep K 2 1; TraceOn K]
        (fresh K false))
  = [true; true; true; true; true; true; true; true; true; true; true; true] /\
  snd (exec [TraceOn K; Record_op o; Record_op d; TraceOff K 0; Sweep K 2 1; TraceOn K; Sweep K 1 1; TraceOn K]
        (fresh K false))
  = [true; true; true; true; false; false; true; true].
Proof. split; reflexivity. Qed.
End Double.
