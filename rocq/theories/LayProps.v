(* C42: every sweep takes from the streams exactly the operations that the
   recorder put there, with every operand in its own role. *)
From Coq Require Import List ZArith Bool Arith Lia.
Require Import Verif.TapeModel Verif.TapeSpec Verif.TapeProps.
Require Import Verif.AdModel Verif.AdRecord Verif.LayModel.
Import ListNotations.
Set Implicit Arguments.
Local Open Scope nat_scope.

Section Lay.
Variable K : Arith.
Notation val := (V K).
Notation op := (op K).

(* ---------------- specification ---------------- *)

(* the image of an operation on the streams: its number and its operands *)
Definition image (o : op) : oper val := (code o, fst (put o), snd (put o)).

(* operations that can occur on a tape *)
Definition on_tape (o : op) : Prop :=
  match o with
  | Plain (SetRef _ _ _) => False
  | Plain (HelpOp _ f _ _ _) => is_helper f = true
  | Plain (TakeStock _ n _ d) => length d = n
  | _ => True
  end.
Definition no_stock (o : op) : Prop :=
  match o with Plain (TakeStock _ _ _ _) => False | _ => True end.

(* what a series of sweeps performed *)
Definition performed (k : sweep_kind) (l : list (oper val)) : list (option op) :=
  match k with
  | Fw => map (performed_f (@rd_f K)) l
  | Rv => map (performed_r (@rd_r K)) l
  end.
Definition performed_all (h : list sweep_kind) (out : list (list (oper val))) :=
  map (fun x => performed (fst x) (snd x)) (combine h out).

(* ---------------- one operation ---------------- *)

Lemma feed_block_f n : forall (d : list val) acc (k : list val -> rdr K) ls,
  length d = n -> ls = [] -> feed (block_f n acc k) ls d = feed (k (acc ++ d)) [] [].
Proof.
  induction n; intros d acc k ls H ->; destruct d; try discriminate.
  - simpl. rewrite app_nil_r. reflexivity.
  - simpl. injection H as H. rewrite IHn; auto. rewrite <- app_assoc. reflexivity.
Qed.

Lemma feed_block_r n : forall (d : list val) acc (k : list val -> rdr K) ls,
  length d = n -> ls = [] -> feed (block_r n acc k) ls d = feed (k (rev d ++ acc)) [] [].
Proof.
  induction n; intros d acc k ls H ->; destruct d; try discriminate.
  - reflexivity.
  - simpl. injection H as H. rewrite IHn; auto. rewrite <- app_assoc. reflexivity.
Qed.

Lemma asks_block_f n : forall (d : list val) acc (k : list val -> rdr K),
  length d = n -> (forall a, calls (k a) = DDone) -> asks (calls (block_f n acc k)) [] d.
Proof.
  induction n; intros d acc k H Hk; destruct d; try discriminate; simpl.
  - rewrite Hk. simpl. auto.
  - exists v, d. split; auto.
Qed.

Lemma asks_block_r n : forall (d : list val) acc (k : list val -> rdr K),
  length d = n -> (forall a, calls (k a) = DDone) -> asks (calls (block_r n acc k)) [] d.
Proof.
  induction n; intros d acc k H Hk; destruct d; try discriminate; simpl.
  - rewrite Hk. simpl. auto.
  - exists v, d. split; auto.
Qed.

Theorem C42_forward_case (o : op) : on_tape o ->
  performed_f (@rd_f K) (image o) = Some o.
Proof.
  intros H. destruct o as [b| | | | | | | | | | | | | | | | | | | |]; try reflexivity.
  destruct b; try reflexivity; try contradiction.
  - destruct c; reflexivity.
  - destruct f; try discriminate; reflexivity.
  - unfold image, performed_f. cbn [code put fst snd rd_f feed].
    rewrite feed_block_f; auto.
Qed.

Theorem C42_reverse_case (o : op) : on_tape o ->
  performed_r (@rd_r K) (image o) = Some o.
Proof.
  intros H. destruct o as [b| | | | | | | | | | | | | | | | | | | |]; try reflexivity.
  destruct b; try reflexivity; try contradiction.
  - destruct c; reflexivity.
  - destruct f; try discriminate; reflexivity.
  - unfold image, performed_r. cbn [code put fst snd rd_r rev app feed].
    rewrite feed_block_r; auto; [|rewrite rev_length; auto].
    rewrite rev_involutive, app_nil_r. reflexivity.
Qed.

Ltac ask := simpl; repeat (eexists; eexists; split; [reflexivity|]); split; reflexivity.

Lemma image_reads_f (o : op) : on_tape o -> reads_f (switch (@rd_f K)) (image o).
Proof.
  intros H. destruct o as [b| | | | | | | | | | | | | | | | | | | |]; try ask.
  destruct b; try ask; try contradiction.
  - destruct c; ask.
  - destruct f; try discriminate; ask.
  - unfold image, reads_f, switch. cbn [code put fst snd rd_f calls asks].
    do 2 (eexists; eexists; split; [reflexivity|]).
    apply asks_block_f; auto.
Qed.

Lemma image_reads_r (o : op) : on_tape o -> reads_r (switch (@rd_r K)) (image o).
Proof.
  intros H. destruct o as [b| | | | | | | | | | | | | | | | | | | |]; try ask.
  destruct b; try ask; try contradiction.
  - destruct c; ask.
  - destruct f; try discriminate; ask.
  - unfold image, reads_r, switch. cbn [code put fst snd rd_r calls rev app asks].
    do 2 (eexists; eexists; split; [reflexivity|]).
    apply asks_block_r; auto. rewrite rev_length; auto.
Qed.

(* ---------------- recording ---------------- *)

Lemma with_last_snoc (l : list (oper val)) o f : with_last (l ++ [o]) f = l ++ [f o].
Proof. unfold with_last. rewrite rev_app_distr. simpl. rewrite rev_involutive. reflexivity. Qed.

Lemma spec_acts_app (l : list (oper val)) a b :
  spec_acts l (a ++ b) = spec_acts (spec_acts l a) b.
Proof. unfold spec_acts. apply fold_left_app. Qed.

Lemma acts_ok_app capL : forall a (l : list (oper val)) b,
  acts_ok capL l (a ++ b) <-> acts_ok capL l a /\ acts_ok capL (spec_acts l a) b.
Proof.
  induction a; intros; simpl; [tauto|]. rewrite IHa. unfold spec_acts. simpl. tauto.
Qed.

Lemma acts_of_spec (o : op) a (l : list (oper val)) : acts_of o a ->
  spec_acts l a = l ++ [image o].
Proof.
  destruct 1 as [o H|x b y t H1 H2|x b y t H1 H2].
  - reflexivity.
  - unfold spec_acts. simpl. rewrite with_last_snoc. simpl. unfold image; simpl.
    rewrite Nat.eqb_refl. apply Nat.eqb_neq in H1, H2. rewrite H1, H2. reflexivity.
  - unfold spec_acts. simpl. rewrite with_last_snoc. simpl. unfold image; simpl.
    rewrite Nat.eqb_refl. apply Nat.eqb_neq in H1, H2. rewrite H1, H2. reflexivity.
Qed.

Lemma image_mult (o : op) a b t vs : image o = (mult_a_a, [a; b; t], vs) ->
  on_tape o -> o = Plain (MultAA K a b t).
Proof.
  intros E H. assert (X : performed_f (@rd_f K) (image o) = Some o) by (apply C42_forward_case; auto).
  rewrite E in X. cbn in X. destruct vs; try discriminate. injection X as <-. reflexivity.
Qed.

Lemma no_prod_spec (l : list op) t y newop : List.Forall on_tape l -> no_prod l t y ->
  with_last (map image l) (fuse_prod t y newop) = map image l.
Proof.
  intros F H. destruct l as [|o0 l0] using rev_ind; [reflexivity|]. clear IHl0.
  rewrite map_app. simpl. rewrite with_last_snoc. do 2 f_equal.
  unfold fuse_prod. destruct (image o0) as [[opc ls] vs] eqn:E.
  destruct ls as [|a [|b [|r [|? ?]]]]; auto.
  destruct (opc =? mult_a_a) eqn:E1; auto. destruct (r =? t) eqn:E2; auto.
  apply Nat.eqb_eq in E1, E2. subst opc r. simpl.
  apply image_mult in E; [|apply Forall_app in F; destruct F as [_ F]; inversion F; auto].
  destruct (H l0 a b) as [->| ->].
  - rewrite E; reflexivity.
  - rewrite Nat.eqb_refl. reflexivity.
  - rewrite Nat.eqb_refl. simpl. rewrite andb_false_r. reflexivity.
Qed.

Lemma acts_of_all_spec (l : list op) a : acts_of_all l a -> List.Forall on_tape l ->
  spec_acts [] a = map image l.
Proof.
  induction 1 as [|l A o a H IH Ha|l A t y ng H IH Hn]; intros F.
  - reflexivity.
  - apply Forall_app in F. destruct F as [F1 F2].
    rewrite spec_acts_app, IH by auto. rewrite (acts_of_spec _ Ha), map_app. reflexivity.
  - rewrite spec_acts_app, IH by auto. unfold spec_acts. simpl.
    apply no_prod_spec; auto.
Qed.

Lemma image_ok capL (o : op) (l : list (oper val)) : 10 <= capL -> on_tape o -> no_stock o ->
  act_ok capL l (AOp (code o) 0 (fst (put o)) (snd (put o))).
Proof.
  intros HL H N. unfold act_ok. rewrite !Nat.add_0_r.
  destruct o as [b| | | | | | | | | | | | | | | | | | | |];
    try (simpl; repeat split; try lia; try reflexivity; discriminate).
  destruct b; try contradiction;
    try (simpl; repeat split; try lia; try reflexivity; discriminate).
  - destruct c; simpl; repeat split; try lia; discriminate.
  - destruct f; try discriminate; simpl; repeat split; try lia; discriminate.
Qed.

Lemma acts_of_all_ok capL (l : list op) a : acts_of_all l a -> 10 <= capL ->
  List.Forall on_tape l -> List.Forall no_stock l -> acts_ok capL [] a.
Proof.
  intros H HL. induction H as [|l A o a H IH Ha|l A t y ng H IH Hn]; intros F G.
  - exact Logic.I.
  - apply Forall_app in F, G. destruct F as [F1 F2], G as [G1 G2].
    apply Forall_inv in F2, G2.
    apply acts_ok_app. split; [auto|].
    revert F2 G2. destruct Ha as [o Ho|x b y t Y1 Y2|x b y t Y1 Y2]; simpl; intros F2 G2.
    + split; [|exact Logic.I]. apply (@image_ok capL o []); auto.
    + repeat split; simpl; first [lia|discriminate|reflexivity|idtac].
    + repeat split; simpl; first [lia|discriminate|reflexivity|idtac].
  - apply acts_ok_app. split; [auto|]. simpl. destruct ng; repeat split; discriminate.
Qed.

(* ---------------- what the recorder puts on the tape ---------------- *)
Definition fit (o : op) : Prop :=
  match o with
  | Plain (EqPlusProd _ a b y) | Plain (EqMinProd _ a b y) => y <> a /\ y <> b
  | _ => True
  end.
Definition good (o : op) : Prop := on_tape o /\ no_stock o /\ fit o.
Definition pgood (p : prim K) : Prop := forall T, List.Forall good (p_op p T).

Lemma good1 (o : op) : good o -> List.Forall good [o].
Proof. intros; constructor; auto. Qed.

Ltac g1 := intros ?; apply good1; repeat split.

Lemma p_dflt_good r : pgood (p_dflt K r). Proof. g1. Qed.
Lemma p_const_good r c : pgood (p_const K r c).
Proof. intros T. simpl. apply good1. destruct (eq0 K c); [repeat split|]. destruct (eq1 K c); repeat split. Qed.
Lemma p_un_good u a r : pgood (p_un K u a r).
Proof. intros T. simpl. apply good1. destruct u; repeat split. Qed.
Lemma p_bin_good b a c r : pgood (p_bin K b a c r).
Proof. intros T. simpl. apply good1. destruct b; repeat split. Qed.
Lemma p_cst_good c v a r : pgood (p_cst K c v a r).
Proof.
  intros T. simpl. apply good1. destruct c; simpl; try (repeat split; fail);
  destruct (eq0 K v); destruct (eq1 K v); destruct (eqb K v (neg K (one K))); repeat split.
Qed.
Lemma knew_good k : List.Forall pgood (knew K k).
Proof. destruct k; repeat constructor. Qed.
Lemma help_good f a t : List.Forall pgood (help_prims K f a t).
Proof.
  destruct f; repeat first [apply Forall_nil | apply Forall_cons];
    first [apply p_dflt_good|apply p_bin_good|apply p_cst_good|apply p_un_good].
Qed.

Lemma prims_good c : List.Forall pgood (prims c).
Proof.
  destruct c; simpl;
    repeat match goal with
    | |- context [if ?b then _ else _] => destruct b eqn:?
    | |- List.Forall _ (match ?k with Fresh _ => _ | Temp => _ end) => destruct k
    | |- List.Forall _ (_ ++ _) => apply Forall_app; split
    | |- List.Forall _ (knew _ _) => apply knew_good
    | |- List.Forall _ (help_prims _ _ _ _) => apply help_good
    | |- List.Forall _ [] => constructor
    | |- List.Forall _ (_ :: _) => constructor
    | |- pgood (p_dflt _ _) => apply p_dflt_good
    | |- pgood (p_const _ _ _) => apply p_const_good
    | |- pgood (p_un _ _ _ _) => apply p_un_good
    | |- pgood (p_bin _ _ _ _ _) => apply p_bin_good
    | |- pgood (p_cst _ _ _ _ _) => apply p_cst_good
    end;
  try (g1; fail);
  try (intros T; simpl; apply good1; try destruct e; repeat split; fail);
  try (intros T; simpl; constructor; fail).
  all: try (intros T; simpl; apply good1; repeat split; simpl; auto; fail).
  all: match goal with H : _ && _ && _ = true |- _ =>
         apply andb_prop in H; destruct H as [Hq1 Hq2];
         apply andb_prop in Hq1; destruct Hq1 as [Hq0 Hq1];
         apply negb_true_iff in Hq1, Hq2; apply Nat.eqb_neq in Hq1, Hq2;
         intros T; simpl; apply good1; repeat split; assumption
       end.
Qed.

(* the operations recorded before have no influence on the run *)
Definition behind (pre : list op) (s : rec K) : rec K :=
  mkRec (sT s) (si s) (pre ++ sops s) (sk s) (sy s) (sd s).

Lemma rprims_behind pre ps x l : forall s,
  rprims ps x l (behind pre s) = option_map (behind pre) (rprims ps x l s).
Proof.
  induction l as [|p l IH]; intros s; [reflexivity|].
  assert (E : rprim ps x p (behind pre s) = option_map (behind pre) (rprim ps x p s)).
  { unfold rprim. simpl. destruct (p_fail p (sT s)); [reflexivity|].
    simpl. unfold behind. simpl. rewrite app_assoc. reflexivity. }
  simpl. rewrite E. destruct (rprim ps x p s); simpl; auto.
Qed.

Lemma run_behind pre ps x p : forall s,
  AdRecord.run ps x p (behind pre s) = option_map (behind pre) (AdRecord.run ps x p s).
Proof.
  induction p as [|c p IH|r a pt IH1 pf IH2]; intros s; simpl.
  - reflexivity.
  - rewrite rprims_behind. destruct (rprims ps x (prims c) s); simpl; auto.
  - assert (E : rcmp r a (behind pre s) = behind pre (rcmp r a s)).
    { unfold rcmp, behind. simpl. rewrite app_assoc. reflexivity. }
    rewrite E. destruct (rel_val K r (sT s a)); auto.
Qed.

Lemma rprims_good ps x l : List.Forall pgood l -> forall s s',
  rprims ps x l s = Some s' -> List.Forall good (sops s) -> List.Forall good (sops s').
Proof.
  induction 1 as [|p l Hp Hl IH]; intros s s' E F; simpl in E.
  - injection E as <-. exact F.
  - destruct (rprim ps x p s) as [s1|] eqn:E1; [|discriminate].
    apply (IH _ _ E). unfold rprim in E1. destruct (p_fail p (sT s)); [discriminate|].
    injection E1 as <-. simpl. apply Forall_app. split; auto.
Qed.

Lemma run_good ps x p : forall s s',
  AdRecord.run ps x p s = Some s' -> List.Forall good (sops s) -> List.Forall good (sops s').
Proof.
  induction p as [|c p IH|r a pt IH1 pf IH2]; intros s s' E F; simpl in E.
  - injection E as <-. exact F.
  - destruct (rprims ps x (prims c) s) as [s1|] eqn:E1; [|discriminate].
    apply (IH _ _ E). eapply rprims_good; [apply prims_good|exact E1|auto].
  - assert (G : List.Forall good (sops (rcmp r a s))).
    { simpl. apply Forall_app. split; auto. apply good1. repeat split. }
    destruct (rel_val K r (sT s a)); eauto.
Qed.

Lemma record_good (T0 : mem K) last ps x p body :
  AdRecord.record T0 [] last ps x p = Some body -> List.Forall good body.
Proof.
  unfold AdRecord.record. destruct (AdRecord.run ps x p (start T0 [])) as [s|] eqn:E; [|discriminate].
  intros H; injection H as <-. unfold finish. apply Forall_app. split.
  - eapply run_good; [exact E|constructor].
  - apply good1. repeat split.
Qed.

Lemma record_chunks (T0 : mem K) chunks last ps x p body :
  AdRecord.record T0 [] last ps x p = Some body ->
  AdRecord.record T0 chunks last ps x p = Some (AdRecord.stock_ops T0 chunks 0 ++ body).
Proof.
  unfold AdRecord.record.
  assert (E : start T0 chunks = behind (AdRecord.stock_ops T0 chunks 0) (start T0 [])).
  { unfold start, behind. simpl. rewrite app_nil_r. reflexivity. }
  rewrite E, run_behind. destruct (AdRecord.run ps x p (start T0 [])) as [s|]; [|discriminate].
  intros H; injection H as <-. simpl. unfold finish, behind. simpl. rewrite app_assoc. reflexivity.
Qed.

(* the actions of a recording exist *)
Lemma acts_exist (l : list op) : List.Forall good l -> exists A, acts_of_all l A.
Proof.
  induction l as [|o l IH] using rev_ind; intros F.
  - exists []. constructor.
  - apply Forall_app in F. destruct F as [F1 F2]. apply Forall_inv in F2.
    destruct (IH F1) as [A HA]. destruct F2 as (_ & _ & Ho).
    destruct o as [b| | | | | | | | | | | | | | | | | | | |];
      try (eexists; eapply aa_op; [exact HA|]; apply acts_plain; exact Logic.I).
    destruct b; try (eexists; eapply aa_op; [exact HA|]; apply acts_plain; exact Logic.I).
    + destruct Ho. eexists. eapply aa_op; [exact HA|]. apply acts_plus_prod with (t := 0); auto.
    + destruct Ho. eexists. eapply aa_op; [exact HA|]. apply acts_min_prod with (t := 0); auto.
Qed.

(* ---------------- the stock ---------------- *)
Lemma seq_split a n m : seq a (n + m) = seq a n ++ seq (a + n) m.
Proof. apply seq_app. Qed.

Lemma stock_image (T0 : mem K) : forall pieces from n,
  concat pieces = map T0 (seq from n) ->
  TapeSpec.stock_ops from pieces
  = map image (AdRecord.stock_ops T0 (map (@length val) pieces) from)
  /\ list_sum (map (@length val) pieces) = n.
Proof.
  induction pieces as [|p r IH]; intros from n H; simpl.
  - split; [reflexivity|]. apply (f_equal (@length val)) in H.
    rewrite map_length, seq_length in H. simpl in H. exact H.
  - simpl in H.
    assert (L : n = length p + (n - length p)).
    { apply (f_equal (@length val)) in H. rewrite map_length, seq_length, app_length in H. lia. }
    rewrite L, seq_split, map_app in H.
    assert (H1 : p = map T0 (seq from (length p))).
    { apply (f_equal (firstn (length p))) in H.
      rewrite firstn_app, Nat.sub_diag, firstn_all, firstn_O, app_nil_r in H.
      rewrite firstn_app, map_length, seq_length, Nat.sub_diag, firstn_O, app_nil_r in H.
      rewrite firstn_all2 in H; [exact H|]. rewrite map_length, seq_length. lia. }
    assert (H2 : concat r = map T0 (seq (from + length p) (n - length p))).
    { rewrite H1 in H at 1. apply app_inv_head in H. exact H. }
    destruct (IH _ _ H2) as [E1 E2]. rewrite E1, E2. split; [|lia].
    unfold image at 1. simpl. rewrite <- H1. reflexivity.
Qed.

Lemma stock_on_tape (T0 : mem K) : forall chunks from,
  List.Forall on_tape (AdRecord.stock_ops T0 chunks from).
Proof.
  induction chunks; intros; simpl; constructor; auto.
  simpl. rewrite map_length, seq_length. reflexivity.
Qed.

Lemma performed_all_ok (ops : list op) h : List.Forall on_tape ops ->
  performed_all h (map (expected (map image ops)) h)
  = map (fun k => map (@Some op) (match k with Fw => ops | Rv => rev ops end)) h.
Proof.
  intros F. unfold performed_all.
  assert (P1 : map (performed_f (@rd_f K)) (map image ops) = map (@Some op) ops).
  { rewrite map_map. apply map_ext_in. intros o Ho. apply C42_forward_case.
    rewrite Forall_forall in F. auto. }
  assert (P2 : map (performed_r (@rd_r K)) (map image (rev ops)) = map (@Some op) (rev ops)).
  { rewrite map_map. apply map_ext_in. intros o Ho. apply C42_reverse_case.
    rewrite Forall_forall in F. apply in_rev in Ho. auto. }
  induction h as [|k h IH]; [reflexivity|]. simpl. rewrite IH. f_equal.
  destruct k; simpl; [exact P1|]. rewrite <- map_rev. exact P2.
Qed.

(* ---------------- C42 ---------------- *)

(* The operations of a program recorded at trace_on .. trace_off, whatever the
   sizes of the buffers: every series of forward and reverse sweeps over the
   streams performs exactly the operations of the trace of the program (in
   reverse order in a reverse sweep). *)
Theorem C42_sweeps_perform_the_recorded_program :
  forall chO chL chV capO capL capV dO dL (dV : list val) numLives nstore
         (T0 : mem K) last ps x p body acts params flag hdr,
  sizes_ok chO chL chV capO capL capV ->
  length dO = capO -> length dL = capL -> length dV = capV ->
  AdRecord.record T0 [] last ps x p = Some body -> acts_of_all body acts ->
  length params <= capV -> length hdr <= statSpace ->
  exists t sts chunks ops N,
    TapeModel.record (zero K) chO chL chV dO dL dV numLives (map T0 (seq 0 nstore))
      acts params flag hdr = Some (t, sts)
    /\ list_sum chunks = (if numLives =? 0 then 0 else nstore)
    /\ AdRecord.record T0 chunks last ps x p = Some ops
    /\ forall fuel h, N <= fuel -> (In Rv h -> reverse_ok capV sts) ->
       exists out,
         sweeps chO chL chV fuel (switch (@rd_f K)) (switch (@rd_r K)) sts t h = Some out
         /\ performed_all h out
            = map (fun k => map (@Some op) (match k with Fw => ops | Rv => rev ops end)) h.
Proof.
  intros chO chL chV capO capL capV dO dL dV numLives nstore T0 last ps x p body acts
    params flag hdr Hz H1 H2 H3 Hr Ha Hp Hh.
  pose proof (record_good _ _ _ _ _ Hr) as G.
  assert (F1 : List.Forall on_tape body) by (eapply Forall_impl; [|exact G]; intros o [? ?]; auto).
  assert (F2 : List.Forall no_stock body) by (eapply Forall_impl; [|exact G]; intros o (_ & ? & _); auto).
  assert (HL : 10 <= capL). { destruct Hz. unfold statSpace in *. lia. }
  destruct (@C06_C07_any_sweep_history val (zero K) chO chL chV capO capL capV dO dL dV numLives
             (map T0 (seq 0 nstore)) acts params flag hdr Hz H1 H2 H3
             (acts_of_all_ok Ha HL F1 F2) Hp Hh)
    as (t & sts & pieces & R & _ & P & _ & N & H).
  assert (P' : concat pieces = map T0 (seq 0 (if numLives =? 0 then 0 else nstore))).
  { destruct (numLives =? 0); auto. }
  destruct (stock_image T0 _ _ _ P') as [S1 S2].
  exists t, sts, (map (@length val) pieces),
    (AdRecord.stock_ops T0 (map (@length val) pieces) 0 ++ body), N.
  split; [exact R|]. split; [exact S2|]. split; [apply record_chunks; exact Hr|].
  intros fuel h HN HR.
  assert (F : List.Forall on_tape (AdRecord.stock_ops T0 (map (@length val) pieces) 0 ++ body)).
  { apply Forall_app. split; auto. apply stock_on_tape. }
  assert (E : TapeSpec.stock_ops 0 pieces ++ spec_acts [] acts
              = map image (AdRecord.stock_ops T0 (map (@length val) pieces) 0 ++ body)).
  { rewrite S1, (acts_of_all_spec Ha F1), map_app. reflexivity. }
  specialize (H fuel (switch (@rd_f K)) (switch (@rd_r K)) h HN). cbv zeta in H.
  rewrite E in H. eexists. split.
  - apply H.
    + intros _. apply Forall_forall. intros o Ho. apply in_map_iff in Ho.
      destruct Ho as (o' & <- & Ho). apply image_reads_f. rewrite Forall_forall in F. auto.
    + intros HI. split; [|auto]. apply Forall_forall. intros o Ho. apply in_map_iff in Ho.
      destruct Ho as (o' & <- & Ho). apply image_reads_r. rewrite Forall_forall in F. auto.
  - apply performed_all_ok. exact F.
Qed.

(* every program that can be recorded has recording actions *)
Theorem C42_recording_exists (T0 : mem K) last ps x p body :
  AdRecord.record T0 [] last ps x p = Some body -> exists acts, acts_of_all body acts.
Proof. intros H. apply acts_exist. eapply record_good; eauto. Qed.

(* different operations have different images *)
Theorem C42_image_injective (o1 o2 : op) : on_tape o1 -> on_tape o2 ->
  image o1 = image o2 -> o1 = o2.
Proof.
  intros H1 H2 E. assert (Some o1 = Some o2) as X.
  { rewrite <- (C42_forward_case o1), <- (C42_forward_case o2), E; auto. }
  injection X; auto.
Qed.

(* ---------------- int_forward, tight ---------------- *)
Definition conditional (o : op) : bool :=
  match o with
  | Plain (CondAssign _ _ _ _ _ _) | Plain (CondAssignS _ _ _ _ _)
  | Plain (CondEqAssign _ _ _ _ _ _) | Plain (CondEqAssignS _ _ _ _ _)
  | RefCondAssign _ _ _ _ _ _ | RefCondAssignS _ _ _ _ _
  | RefCondEqAssign _ _ _ _ _ _ | RefCondEqAssignS _ _ _ _ _ => true
  | _ => false
  end.

(* without conditional assignments it takes what the others take *)
Theorem C42_bits_tight_case (o : op) : on_tape o -> conditional o = false ->
  performed_f (@rd_bits K) (image o) = Some o /\ reads_f (switch (@rd_bits K)) (image o).
Proof.
  intros H C.
  assert (E : rd_bits K (code o) = rd_f K (code o)).
  { destruct o as [b| | | | | | | | | | | | | | | | | | | |]; try reflexivity; try discriminate.
    destruct b; try reflexivity; try discriminate.
    - destruct c; reflexivity.
    - destruct f; reflexivity. }
  split.
  - unfold performed_f, image. rewrite E. apply C42_forward_case; auto.
  - unfold reads_f, switch, image. rewrite E. apply (image_reads_f o); auto.
Qed.

(* with one it takes a constant that belongs to a later operation *)
Theorem C42_bits_tight_case_refuted (o : op) : on_tape o -> conditional o = true ->
  performed_f (@rd_bits K) (image o) = None /\ ~ reads_f (switch (@rd_bits K)) (image o).
Proof.
  intros H C.
  destruct o as [b| | | | | | | | | | | | | | | | | | | |]; try discriminate; try destruct b; try discriminate;
  (split; [reflexivity|]); simpl; intros A;
  repeat match goal with
  | A : exists _, _ |- _ => destruct A
  | A : _ /\ _ |- _ => destruct A
  end; simpl in *; repeat match goal with A : _ :: _ = _ :: _ |- _ => injection A as; subst end; try discriminate.
Qed.

End Lay.

(* ---------------- a concrete case, for any arithmetic ---------------- *)
Section Ex.
Variable K : Arith.
Variables c1 c2 : V K.
Let ex_x (i : nat) : V K := ofnat K (10 + i).
Let ex_T0 (i : nat) : V K := ofnat K (20 + i).

(* three independents, y = cond > 0 ? a : b, y/c1, then /c2, a fused product and a
   reference *)
Definition ex_prog : prog K :=
  Do (CInd K 0) (Do (CInd K 1) (Do (CInd K 2) (Do (CCond K 3 0 1 2)
  (Do (CCst K KDiv (Fresh 4) c1 3) (Do (CCst K KDiv (Fresh 5) c2 4)
  (Do (CEqProd K false (Fresh 6) 4 5 3 true) (Do (CDep K 3) (Ret K)))))))).

Definition ex_body : list (op K) :=
  [Plain (AssignInd K 0); Plain (AssignInd K 1); Plain (AssignInd K 2);
   Plain (CondAssign K 0 1 2 3 (ofnat K 10));
   Plain (AssignD0 K 4); Plain (DivDA K 3 4 c1);
   Plain (AssignD0 K 5); Plain (DivDA K 4 5 c2);
   Plain (AssignD0 K 6); Plain (EqPlusProd K 4 5 3);
   Plain (AssignDep K 3); Plain (DeathNot K 0 6)].

Definition ex_actions : list (act (V K)) :=
  [AOp 1 0 [0] []; AOp 1 0 [1] []; AOp 1 0 [2] [];
   AOp 37 0 [0; 1; 2; 3] [ofnat K 10];
   AOp 41 0 [4] []; AOp 18 0 [3; 4] [c1];
   AOp 41 0 [5] []; AOp 18 0 [4; 5] [c2];
   AOp 41 0 [6] []; AOp 15 0 [4; 5; 6] []; AUpdInc _ 6 3 54;
   AOp 2 0 [3] []; AOp 0 0 [0; 6] []].

Definition ex_tape (capV : nat) (params : list (V K)) :=
  TapeModel.record (zero K) 1000 1000 1000 (repeat 7 4) (repeat 9 50) (repeat (one K) capV)
    1 (map ex_T0 (seq 0 7)) ex_actions params false (repeat 5 40).

Lemma aa_plain (l : list (op K)) A (o : op K) a :
  acts_of_all l A -> acts_of o [a] -> acts_of_all (l ++ [o]) (A ++ [a]).
Proof. intros. eapply aa_op; eauto. Qed.

Theorem C42_met (params : list (V K)) : params = [zero K] ->
  sizes_ok 1000 1000 1000 4 50 5
  /\ AdRecord.record ex_T0 [] 6 (fun _ => zero K) ex_x ex_prog = Some ex_body
  /\ acts_of_all ex_body ex_actions
  /\ exists t sts, ex_tape 5 params = Some (t, sts) /\ reverse_ok 5 sts
     /\ s_acc (st_op sts) = true /\ s_acc (st_val sts) = true.
Proof.
  intros ->. split; [|split; [|split]].
  - constructor; unfold statSpace; lia.
  - reflexivity.
  - assert (A0 : acts_of_all (@nil (op K)) []) by constructor.
    unfold ex_body, ex_actions.
    pose proof (aa_plain A0 (acts_plain (Plain (AssignInd K 0)) Logic.I)) as A1.
    pose proof (aa_plain A1 (acts_plain (Plain (AssignInd K 1)) Logic.I)) as A2.
    pose proof (aa_plain A2 (acts_plain (Plain (AssignInd K 2)) Logic.I)) as A3.
    pose proof (aa_plain A3 (acts_plain (Plain (CondAssign K 0 1 2 3 (ofnat K 10))) Logic.I)) as A4.
    pose proof (aa_plain A4 (acts_plain (Plain (AssignD0 K 4)) Logic.I)) as A5.
    pose proof (aa_plain A5 (acts_plain (Plain (DivDA K 3 4 c1)) Logic.I)) as A6.
    pose proof (aa_plain A6 (acts_plain (Plain (AssignD0 K 5)) Logic.I)) as A7.
    pose proof (aa_plain A7 (acts_plain (Plain (DivDA K 4 5 c2)) Logic.I)) as A8.
    pose proof (aa_plain A8 (acts_plain (Plain (AssignD0 K 6)) Logic.I)) as A9.
    assert (B : acts_of (Plain (EqPlusProd K 4 5 3))
                [AOp 15 0 [4; 5; 6] []; AUpdInc (V K) 6 3 54]) by (constructor; lia).
    pose proof (aa_op A9 B) as A10.
    pose proof (aa_plain A10 (acts_plain (Plain (AssignDep K 3)) Logic.I)) as A11.
    pose proof (aa_plain A11 (acts_plain (Plain (DeathNot K 0 6)) Logic.I)) as A12.
    exact A12.
  - vm_compute. do 2 eexists. split; [reflexivity|]. simpl.
    repeat split; try lia; auto.
Qed.

(* The sparsity sweep in its tight version on this tape: the first division is
   performed with the constant of the second. *)
Theorem C42_bits_tight_refuted :
  exists t sts out,
    ex_tape 20 [zero K] = Some (t, sts)
    /\ sweeps 1000 1000 1000 60 (switch (@rd_bits K)) (switch (@rd_r K)) sts t [Fw] = Some [out]
    /\ In (Plain (DivDA K 3 4 c1)) ex_body
    /\ In (Some (Plain (DivDA K 3 4 c2))) (map (performed_f (@rd_bits K)) out)
    /\ (In (Some (Plain (DivDA K 3 4 c1))) (map (performed_f (@rd_bits K)) out) -> c1 = c2).
Proof.
  destruct (ex_tape 20 [zero K]) as [[t sts]|] eqn:E; vm_compute in E; [|discriminate].
  injection E as <- <-. do 3 eexists. split; [reflexivity|]. split; [vm_compute; reflexivity|].
  split; [simpl; tauto|]. split.
  - vm_compute. tauto.
  - vm_compute. intros H. repeat (destruct H as [H|H]; [try discriminate H; try (injection H as H; congruence)|]). contradiction.
Qed.
End Ex.
