(* The check of AdTidy.v at the level of the user's calls. *)
From Coq Require Import List ZArith Bool Arith Lia Reals.
Require Import Verif.AdModel Verif.AdRecord Verif.AdSpec Verif.AdReplay Verif.AdRestore
  Verif.AdReal Verif.AdLin Verif.AdReverse Verif.AdTidy.
Import ListNotations.
Set Implicit Arguments.
Unset Asymmetric Patterns.

(* ------------------------------------------------------------------ *)
(* Specification: which programs the reverse sweep supports.            *)

(* The calls considered: all but advector, vector operations other than vec_dot,
   frexp. *)
Definition supported (c : call reals) : bool :=
  match c with
  | CDefault _ _ | CConst _ _ _ | CCopy _ _ _ | CAssign _ _ _ | CAssignP _ _ _
  | CParam _ _ _ | CInd _ _ | CDeclInd _ _ | CDep _ _ | CEqD _ _ _ _ | CEqA _ _ _ _
  | CEqProd _ _ _ _ _ _ _ | CInc _ _ | CDec _ _ | CPostInc _ _ _ | CPostDec _ _ _
  | CUn _ _ _ _ | CPow _ _ _ _ | CBin _ _ _ _ _ | CDivR _ _ _ | CSubR _ _ _
  | CCst _ _ _ _ _ | CSin _ _ _ _ | CCos _ _ _ _ | CMin _ _ _ _ | CMinR _ _ _
  | CCond _ _ _ _ _ | CCondS _ _ _ _ | CCondEq _ _ _ _ _ | CCondEqS _ _ _ _
  | CVecDot _ _ _ _ _ => true
  | CHelp _ f _ _ _ => is_helper f
  | _ => false
  end.

(* variables read, created for the call, assigned, gone after it *)
Definition knews (k : kind) : list nat := match k with Fresh r => [r] | Temp => [] end.
Definition c_reads (c : call reals) : list nat :=
  match c with
  | CCopy _ a _ | CAssign _ a _ => [a]
  | CDep _ r | CEqD _ _ r _ | CInc _ r | CDec _ r => [r]
  | CEqA _ _ a r => [a; r]
  | CEqProd _ _ _ a b y _ => [a; b; y]
  | CPostInc _ a _ | CPostDec _ a _ => [a]
  | CUn _ _ _ a | CPow _ _ a _ | CCst _ _ _ _ a => [a]
  | CBin _ _ _ a b | CDivR _ a b | CSubR _ a b | CMin _ _ a b | CMinR _ a b => [a; b]
  | CSin _ _ a _ | CCos _ _ a _ | CHelp _ _ _ a _ => [a]
  | CCond _ _ cond a1 a2 | CCondEq _ _ cond a1 a2 => [cond; a1; a2]
  | CCondS _ res cond a | CCondEqS _ res cond a => [cond; a; res]
  | CVecDot _ _ va vb n => seq va n ++ seq vb n
  | _ => []
  end.
Definition c_creates (c : call reals) : list nat :=
  match c with
  | CDefault _ r | CCopy _ _ r | CParam _ _ r | CPostInc _ _ r | CPostDec _ _ r
  | CVecDot _ r _ _ _ => [r]
  | CEqProd _ _ k _ _ _ _ | CUn _ _ k _ | CPow _ k _ _ | CBin _ _ k _ _ | CCst _ _ k _ _
  | CMin _ k _ _ => knews k
  | CSin _ k _ b | CCos _ k _ b | CHelp _ _ k _ b => b :: knews k
  | _ => []
  end.
Definition c_assigns (c : call reals) : list nat :=
  match c with
  | CDefault _ r | CConst _ r _ | CCopy _ _ r | CAssign _ _ r | CAssignP _ _ r
  | CParam _ _ r | CInd _ r | CDeclInd _ r | CEqD _ _ r _ | CEqA _ _ _ r | CInc _ r
  | CDec _ r => [r]
  | CEqProd _ _ k a _ y _ => [y; kres k a]
  | CPostInc _ a r | CPostDec _ a r => [r; a]
  | CUn _ _ k a | CPow _ k a _ | CBin _ _ k a _ | CCst _ _ k _ a | CSin _ k a _
  | CCos _ k a _ | CMin _ k a _ | CHelp _ _ k a _ => [kres k a]
  | CDivR _ _ b | CSubR _ _ b | CMinR _ _ b => [b]
  | CCond _ res _ _ _ | CCondEq _ res _ _ _ | CCondS _ res _ _ | CCondEqS _ res _ _ => [res]
  | CVecDot _ r _ _ _ => [r]
  | _ => []
  end.
Definition c_dies (c : call reals) : list nat :=
  match c with
  | CEqProd _ _ k a _ _ _ => [kres k a]
  | CSin _ _ _ b | CCos _ _ _ b | CHelp _ _ _ _ b => [b]
  | CDep _ r => [r]                       (* a dependent is not read again *)
  | _ => []
  end.
(* a constant *)
Definition c_const (c : call reals) : bool :=
  match c with
  | CDefault _ _ | CConst _ _ _ | CAssignP _ _ _ | CParam _ _ _
  | CUn _ UCeil _ _ | CUn _ UFloor _ _ => true
  | _ => false
  end.
Definition c_side (c : call reals) (W : nat -> bool) : bool :=
  match c with
  | CInd _ r | CDeclInd _ r => negb (W r)
  | CEqProd _ _ k a b y _ => negb (y =? kres k a)
  | CSubR _ a b => negb (a =? b)
  | _ => true
  end.

Definition disjoint (s1 s2 : list nat) : bool := forallb (fun l => negb (sin l s2)) s1.
Fixpoint nodupb (s : list nat) : bool :=
  match s with [] => true | l :: s' => negb (sin l s') && nodupb s' end.

(* D: variables that may be read; W: variables that are not constants; all
   locations are below N. *)
Definition call_ok (N : nat) (c : call reals) (D W : nat -> bool)
  : option ((nat -> bool) * (nat -> bool)) :=
  if supported c && below N (c_reads c ++ c_creates c ++ c_assigns c)
     && forallb D (c_reads c) && disjoint (c_creates c) (c_reads c)
     && nodupb (c_creates c) && c_side c W
  then Some (sdel (sadd D (c_assigns c)) (c_dies c),
             if c_const c then sdel W (c_assigns c)
             else sadd W (c_assigns c ++ c_creates c))
  else None.

Fixpoint prog_ok (N : nat) (p : prog reals) (D W : nat -> bool) : bool :=
  match p with
  | Ret _ => true
  | Do c p' => match call_ok N c D W with
               | Some (D', W') => prog_ok N p' D' W'
               | None => false
               end
  | If r a pt pf => below N [a] && D a && prog_ok N pt D W && prog_ok N pf D W
  end.

(* ------------------------------------------------------------------ *)
(* Proofs                                                               *)

Fixpoint tfold (N : nat) (bs : list (bop reals)) (D W : nat -> bool)
  : option ((nat -> bool) * (nat -> bool)) :=
  match bs with
  | [] => Some (D, W)
  | b :: bs' => match tidy_op N b D W with
                | Some (D', W') => tfold N bs' D' W'
                | None => None
                end
  end.
Lemma tidy_app N bs1 bs2 : forall D W D' W', tfold N bs1 D W = Some (D', W') ->
  tidy N (bs1 ++ bs2) D W = tidy N bs2 D' W'.
Proof.
  induction bs1 as [|b bs IH]; intros D W D' W' H; cbn in *.
  - now injection H as <- <-.
  - destruct (tidy_op N b D W) as [[D1 W1]|]; [|discriminate]. auto.
Qed.

Lemma tfold_app N bs1 bs2 : forall D W D' W', tfold N bs1 D W = Some (D', W') ->
  tfold N (bs1 ++ bs2) D W = tfold N bs2 D' W'.
Proof.
  induction bs1 as [|b bs IH]; intros D W D' W' H; cbn in *.
  - now injection H as <- <-.
  - destruct (tidy_op N b D W) as [[D1 W1]|]; [|discriminate]. auto.
Qed.

Lemma sub_sadd f g s : sub_set f g -> sub_set (sadd f s) (sadd g s).
Proof. intros H l. rewrite !sadd_true. intuition. Qed.
Lemma sub_sdel f g s : sub_set f g -> sub_set (sdel f s) (sdel g s).
Proof. intros H l. rewrite !sdel_true. intuition. Qed.

Lemma tidy_op_mono N b D W D1 W1 D' W' : sub_set D D' -> sub_set W' W ->
  tidy_op N b D W = Some (D1, W1) ->
  exists D2 W2, tidy_op N b D' W' = Some (D2, W2) /\ sub_set D1 D2 /\ sub_set W2 W1.
Proof.
  intros Hd Hw H. unfold tidy_op in *.
  destruct (below N (breads b ++ bwrites b ++ extra b)); [|discriminate]. cbn [andb] in *.
  destruct (forallb D (breads b)) eqn:R; [|discriminate].
  replace (forallb D' (breads b)) with true.
  2:{ symmetry. rewrite forallb_forall in *. auto. }
  assert (Wf : forall r, W r = false -> W' r = false).
  { intros r Hr. destruct (W' r) eqn:E; auto. apply Hw in E. congruence. }
  destruct b; cbn [shape] in *; try discriminate H;
    repeat match type of H with
    | (if W ?r then _ else _) = _ =>
        destruct (W r) eqn:?; [discriminate|]; rewrite (Wf r) by auto
    | (if (W ?r || ?c)%bool then _ else _) = _ =>
        destruct (W r) eqn:?; [discriminate|]; rewrite (Wf r) by auto; cbn [orb] in *
    | (if ?c then _ else _) = _ => destruct c; try discriminate
    end;
    injection H as <- <-; do 2 eexists; (split; [reflexivity|]);
    split; auto using sub_sadd, sub_sdel.
Qed.
Lemma tidy_mono N bs : forall D W D' W', sub_set D D' -> sub_set W' W ->
  tidy N bs D W = true -> tidy N bs D' W' = true.
Proof.
  induction bs as [|b bs IH]; intros D W D' W' Hd Hw H; cbn in *; auto.
  destruct (tidy_op N b D W) as [[D1 W1]|] eqn:E; [|discriminate].
  destruct (@tidy_op_mono N b D W D1 W1 D' W' Hd Hw E) as (D2 & W2 & -> & S1 & S2).
  eauto.
Qed.

Lemma disjoint_iff s1 s2 : disjoint s1 s2 = true <-> forall l, In l s1 -> ~ In l s2.
Proof.
  unfold disjoint. rewrite forallb_forall. split; intros H l Hl.
  - apply sin_false. apply negb_true_iff. auto.
  - apply negb_true_iff, sin_false. auto.
Qed.

Ltac sets :=
  repeat match goal with
  | H : sadd _ _ _ = true |- _ => apply sadd_true in H
  | H : sdel _ _ _ = true |- _ => apply sdel_true in H; destruct H
  | |- sadd _ _ _ = true => apply sadd_true
  | |- sdel _ _ _ = true => apply sdel_true; split
  end.
Ltac fin := cbn [In] in *; intuition (subst; auto; try congruence; sets; cbn [In] in *; intuition (subst; auto; try congruence)).


Lemma rprim_plain ps x (p : prim reals) s s' : rprim ps x p s = Some s' ->
  sops s' = sops s ++ p_op p (sT s).
Proof. unfold rprim. destruct (p_fail p (sT s)); [discriminate|]. intros H. injection H as <-. reflexivity. Qed.

(* one operation of the general form *)
Definition generic (b : bop reals) (res : nat) : Prop :=
  exists args na nb, shape b = Some (res, args, na, nb, true).
Lemma tidy_generic N b D W res : generic b res ->
  (forall l, In l (breads b ++ bwrites b ++ extra b) -> l < N) ->
  (forall l, In l (breads b) -> D l = true) ->
  tidy_op N b D W = Some (sadd D [res], sadd W [res]).
Proof.
  intros (args & na & nb & Sh) B R. unfold tidy_op.
  replace (below N (breads b ++ bwrites b ++ extra b)) with true
    by (symmetry; now apply below_iff).
  replace (forallb D (breads b)) with true by (symmetry; now apply forallb_forall).
  destruct b; try discriminate Sh; cbn [andb]; rewrite Sh; reflexivity.
Qed.
Definition constant (b : bop reals) (res : nat) : Prop :=
  match b with
  | AssignD _ r _ | AssignP _ _ r | AssignD0 _ r | AssignD1 _ r
  | CeilOp _ _ r _ | FloorOp _ _ r _ => r = res
  | _ => False
  end.
Lemma tidy_constant N b D W res : constant b res ->
  (forall l, In l (breads b ++ [res]) -> l < N) ->
  (forall l, In l (breads b) -> D l = true) ->
  tidy_op N b D W = Some (sadd D [res], sdel W [res]).
Proof.
  intros C B R. unfold tidy_op.
  replace (below N (breads b ++ bwrites b ++ extra b)) with true.
  2:{ symmetry. apply below_iff. intros l Hl. apply B.
      destruct b; cbn in C; try contradiction; subst; cbn in *; tauto. }
  replace (forallb D (breads b)) with true by (symmetry; now apply forallb_forall).
  destruct b; cbn in C; try contradiction; subst; reflexivity.
Qed.

Ltac inb B := let j := fresh "j" in intros j; cbn [In app breads bwrites extra]; intros ?;
   apply B; rewrite ?in_app_iff; cbn [In]; intuition (subst; auto).
Ltac ind R := let j := fresh "j" in let Hj := fresh "Hj" in
   intros j Hj; cbn [In app breads] in Hj;
   repeat match type of Hj with _ \/ _ => destruct Hj as [Hj|Hj] end; try contradiction Hj;
   (repeat (apply sadd_true; cbn [In];
     match goal with |- ?a \/ ?b => first [left; solve [intuition (subst; auto)]|right] end);
   apply R; cbn [In]; intuition (subst; auto)).
Ltac gen B R := erewrite tidy_generic;
   [|do 3 eexists; cbn [shape]; reflexivity |solve [inb B] |solve [ind R]].
Ltac cst B R := erewrite tidy_constant;
   [|reflexivity |solve [inb B] |solve [ind R]].


Definition quiet (b : bop reals) : Prop :=
  match b with EqPlusD _ _ _ | EqMinD _ _ _ | Incr _ _ | Decr _ _ => True | _ => False end.
Lemma tidy_quiet N b D W : quiet b ->
  (forall l, In l (breads b) -> l < N) ->
  (forall l, In l (breads b) -> D l = true) ->
  tidy_op N b D W = Some (D, W).
Proof.
  intros Q B R. unfold tidy_op.
  replace (below N (breads b ++ bwrites b ++ extra b)) with true.
  2:{ symmetry. apply below_iff. intros l Hl. apply B.
      destruct b; cbn in Q; try contradiction; cbn in *; tauto. }
  replace (forallb D (breads b)) with true by (symmetry; now apply forallb_forall).
  destruct b; cbn in Q; try contradiction; reflexivity.
Qed.
Ltac nop B R := erewrite tidy_quiet; [|exact I |solve [inb B] |solve [ind R]].
Ltac eqbs := repeat match goal with
  | H : (?a =? ?b)%nat = false |- context [(?a =? ?b)%nat] => rewrite H
  end.
Ltac gen B R ::= erewrite tidy_generic;
   [|do 3 eexists; cbn [shape]; eqbs; cbn [negb]; reflexivity |solve [inb B] |solve [ind R]].
Ltac spec B R :=
  match goal with
  | |- context [tidy_op ?N ?b ?D ?W] =>
      unfold tidy_op at 1;
      replace (below N (breads b ++ bwrites b ++ extra b)) with true
        by (symmetry; apply below_iff; solve [inb B]);
      replace (forallb D (breads b)) with true
        by (symmetry; apply forallb_forall; solve [ind R]);
      cbn [andb]
  end.
Ltac go Hr bs :=
  injection Hr as <-; exists bs; do 2 eexists; split;
    [cbn [sops map]; rewrite <- ?app_assoc; reflexivity|].
Ltac mem := let l := fresh "l" in let Hl := fresh "Hl" in intros l Hl;
  repeat (rewrite ?sadd_true, ?sdel_true in Hl); repeat (rewrite ?sadd_true, ?sdel_true);
  cbn [In] in *;
  match goal with R : forall x, _ -> ?D x = true |- _ => clear - Hl R | _ => clear - Hl end;
  intuition (subst; auto 6).
Ltac done := split; [reflexivity|]; split; mem.
Ltac steps B R := cbn [tfold]; repeat first [gen B R | cst B R | nop B R].

(* a group of operations that all store to t *)
Definition stores (a t : nat) (b : bop reals) : Prop :=
  generic b t /\ (forall l, In l (breads b) -> l = a \/ l = t) /\
  (forall l, In l (bwrites b ++ extra b) -> l = a \/ l = t).
Lemma tfold_stores N a t bs : a < N -> t < N -> Forall (stores a t) bs -> forall D W,
  D a = true -> D t = true ->
  exists D' W', tfold N bs D W = Some (D', W') /\ sub_set D D' /\ sub_set W' (sadd W [t]).
Proof.
  intros Ha Ht. induction 1 as [|b bs (G & Rb & Wb) _ IH]; intros D W Da Dt.
  - exists D, W. repeat split; auto. intros l Hl; auto. intros l Hl. apply sadd_true. auto.
  - cbn [tfold]. rewrite (@tidy_generic N b D W t G).
    + destruct (IH (sadd D [t]) (sadd W [t])) as (D' & W' & E & S1 & S2).
      1,2: apply sadd_true; auto.
      exists D', W'. split; auto. split.
      * intros l Hl. apply S1, sadd_true. auto.
      * intros l Hl. apply S2 in Hl. rewrite !sadd_true in Hl. apply sadd_true. tauto.
    + intros l Hl. apply in_app_or in Hl as [Hl|Hl]; [apply Rb in Hl|apply Wb in Hl];
        destruct Hl as [->| ->]; auto.
    + intros l Hl. apply Rb in Hl as [->| ->]; auto.
Qed.
Lemma rprims_ops ps x l bs : Forall2 (fun (p : prim reals) b => forall T, p_op p T = [Plain b]) l bs ->
  forall s s', rprims ps x l s = Some s' -> sops s' = sops s ++ map (@Plain reals) bs.
Proof.
  induction 1 as [|p b l bs Hp _ IH]; intros s s' H; cbn in H.
  - injection H as <-. now rewrite app_nil_r.
  - destruct (rprim ps x p s) as [s1|] eqn:E; [|discriminate].
    apply IH in H. apply rprim_plain in E. rewrite H, E, Hp. cbn. now rewrite <- app_assoc.
Qed.
Lemma rprims_app' ps x (l1 l2 : list (prim reals)) : forall s,
  rprims ps x (l1 ++ l2) s =
  match rprims ps x l1 s with Some s1 => rprims ps x l2 s1 | None => None end.
Proof.
  induction l1 as [|p l1 IH]; intros s; cbn; auto.
  destruct (rprim ps x p s); auto.
Qed.
Lemma cst_stores c cv a t : stores a t (cst_op reals c cv t t).
Proof.
  destruct c; cbn [cst_op];
    repeat match goal with |- context [if ?e then _ else _] => destruct e end;
    (split; [do 3 eexists; reflexivity|]; cbn; intuition auto).
Qed.
Lemma help_stores f a t : is_helper f = true ->
  exists bs, Forall (stores a t) bs /\
    Forall2 (fun (p : prim reals) b => forall T, p_op p T = [Plain b])
            (help_prims reals f a t) (AssignD0 reals t :: bs).
Proof.
  intros H. destruct f; try discriminate H; unfold help_prims; cbn [app];
  (eexists; split;
    [|repeat first [apply Forall2_nil | apply Forall2_cons; [intros T; cbv beta iota delta [p_un p_op wr un_op]; reflexivity|]]]);
  repeat first [apply Forall_nil
               | apply Forall_cons;
                 [first [apply cst_stores
                        |split; [do 3 eexists; reflexivity|]; cbn; intuition auto]|]].
Qed.

Lemma call_tidy N (c : call reals) D W D' W' ps x s s' :
  call_ok N c D W = Some (D', W') ->
  rprims ps x (prims c) s = Some s' ->
  exists bs D'' W'', sops s' = sops s ++ map (@Plain reals) bs /\
    tfold N bs D W = Some (D'', W'') /\ sub_set D' D'' /\ sub_set W'' W'.
Proof.
  intros H Hr. unfold call_ok in H.
  match type of H with (if ?e then _ else _) = _ => destruct e eqn:C; [|discriminate] end.
  injection H as <- <-.
  apply andb_prop in C as [C C6]. apply andb_prop in C as [C C5].
  apply andb_prop in C as [C C4]. apply andb_prop in C as [C C3].
  apply andb_prop in C as [C1 B]. rewrite below_iff in B.
  rewrite forallb_forall in C3. rename C3 into R. rewrite disjoint_iff in C4. rename C4 into F.
  destruct c; try discriminate C1;
    cbn [c_reads c_creates c_assigns c_dies c_const c_side app] in *.
  - (* default *)
    injection Hr as <-. exists [AssignD0 reals r]. do 2 eexists. split; [reflexivity|].
    cbn [tfold]. cst B R. done.
  - (* const *)
    injection Hr as <-.
    exists [if eq0 reals c then AssignD0 reals r
            else if eq1 reals c then AssignD1 reals r else AssignD reals r c].
    do 2 eexists. split; [reflexivity|].
    cbn [tfold]. erewrite (@tidy_constant _ _ _ _ r).
    + done.
    + destruct (eq0 reals c), (eq1 reals c); reflexivity.
    + destruct (eq0 reals c), (eq1 reals c); solve [inb B].
    + destruct (eq0 reals c), (eq1 reals c); solve [ind R].
  - (* copy *)
    assert (Ne : (a =? r) = false) by (apply Nat.eqb_neq; intros ->; apply (F r); cbn; auto).
    go Hr [AssignA reals a r]. steps B R. done.
  - (* assign *)
    cbn [prims] in Hr. destruct (Nat.eqb_spec a r) as [->|Ne].
    + injection Hr as <-. exists []. do 2 eexists. split; [cbn; now rewrite app_nil_r|].
      cbn [tfold]. split; [reflexivity|]. split; [|mem].
      intros l Hl. rewrite sdel_true, sadd_true in Hl. cbn [In] in *.
      clear - Hl R. intuition (subst; auto).
    + apply Nat.eqb_neq in Ne. go Hr [AssignA reals a r]. steps B R. done.
  - go Hr [AssignP reals p r]. steps B R. done.
  - go Hr [AssignD0 reals r; AssignP reals p r]. steps B R. done.
  - (* independent *)
    apply negb_true_iff in C6. go Hr [AssignInd reals r]. cbn [tfold]. spec B R. rewrite C6. done.
  - apply negb_true_iff in C6. go Hr [AssignInd reals r]. cbn [tfold]. spec B R. rewrite C6. done.
  - (* dependent *)
    go Hr [AssignDep reals r]. cbn [tfold]. spec B R. done.
  - destruct e.
    + go Hr [EqPlusD reals r c]. steps B R. done.
    + go Hr [EqMinD reals r c]. steps B R. done.
    + go Hr [EqMultD reals r c]. steps B R. done.
  - destruct e.
    + go Hr [EqPlusA reals a r]. steps B R. done.
    + go Hr [EqMinA reals a r]. steps B R. done.
    + go Hr [EqMultA reals a r]. steps B R. done.
  - (* y += a*b *)
    apply negb_true_iff, Nat.eqb_neq in C6. cbn [prims] in Hr.
    destruct (fuse && negb (y =? a) && negb (y =? b)) eqn:E.
    + apply andb_prop in E as [E E3]. apply andb_prop in E as [_ E2].
      apply negb_true_iff in E2, E3. rewrite Nat.eqb_sym in E2, E3.
      destruct k; cbn [knews kres app] in *.
      * destruct neg.
        -- go Hr [AssignD0 reals r; EqMinProd reals a b y]. steps B R. spec B R. rewrite E2, E3. done.
        -- go Hr [AssignD0 reals r; EqPlusProd reals a b y]. steps B R. spec B R. rewrite E2, E3. done.
      * destruct neg.
        -- go Hr [EqMinProd reals a b y]. steps B R. spec B R. rewrite E2, E3. done.
        -- go Hr [EqPlusProd reals a b y]. steps B R. spec B R. rewrite E2, E3. done.
    + destruct k; cbn [knews kres app] in *.
      * destruct neg.
        -- go Hr [AssignD0 reals r; MultAA reals a b r; EqMinA reals r y]. steps B R. done.
        -- go Hr [AssignD0 reals r; MultAA reals a b r; EqPlusA reals r y]. steps B R. done.
      * destruct neg.
        -- go Hr [MultAA reals a b a; EqMinA reals a y]. steps B R. done.
        -- go Hr [MultAA reals a b a; EqPlusA reals a y]. steps B R. done.
  - go Hr [Incr reals r]. steps B R. done.
  - go Hr [Decr reals r]. steps B R. done.
  - assert (Ne : (a =? r) = false) by (apply Nat.eqb_neq; intros ->; apply (F r); cbn; auto).
    go Hr [AssignD0 reals r; AssignA reals a r; Incr reals a]. steps B R. done.
  - assert (Ne : (a =? r) = false) by (apply Nat.eqb_neq; intros ->; apply (F r); cbn; auto).
    go Hr [AssignD0 reals r; AssignA reals a r; Decr reals a]. steps B R. done.
  - (* unary *)
    destruct k; cbn [knews kres app] in *; destruct u; cbn [c_const] in *.
    + go Hr [AssignD0 reals r; PosSign reals a r]. steps B R. done.
    + go Hr [AssignD0 reals r; NegSign reals a r]. steps B R. done.
    + go Hr [AssignD0 reals r; ExpOp reals a r]. steps B R. done.
    + go Hr [AssignD0 reals r; LogOp reals a r]. steps B R. done.
    + go Hr [AssignD0 reals r; SqrtOp reals a r]. steps B R. done.
    + go Hr [AssignD0 reals r; CbrtOp reals a r]. steps B R. done.
    + go Hr [AssignD0 reals r; CeilOp reals a r (vceil reals (upd (sT s) r (zero reals) a))]. steps B R. done.
    + go Hr [AssignD0 reals r; FloorOp reals a r (vfloor reals (upd (sT s) r (zero reals) a))]. steps B R. done.
    + go Hr [AssignD0 reals r; AbsVal reals a r (if eqb reals (vabs reals (upd (sT s) r (zero reals) a)) (upd (sT s) r (zero reals) a) then one reals else zero reals)]. steps B R. done.
    + go Hr [PosSign reals a a]. steps B R. done.
    + go Hr [NegSign reals a a]. steps B R. done.
    + go Hr [ExpOp reals a a]. steps B R. done.
    + go Hr [LogOp reals a a]. steps B R. done.
    + go Hr [SqrtOp reals a a]. steps B R. done.
    + go Hr [CbrtOp reals a a]. steps B R. done.
    + go Hr [CeilOp reals a a (vceil reals (sT s a))]. steps B R. done.
    + go Hr [FloorOp reals a a (vfloor reals (sT s a))]. steps B R. done.
    + go Hr [AbsVal reals a a (if eqb reals (vabs reals (sT s a)) (sT s a) then one reals else zero reals)]. steps B R. done.
  - destruct k; cbn [knews kres app] in *.
    + go Hr [AssignD0 reals r; PowOp reals a r c]. steps B R. done.
    + go Hr [PowOp reals a a c]. steps B R. done.
  - destruct k; cbn [knews kres app] in *.
    + destruct b.
      * go Hr [AssignD0 reals r; PlusAA reals a b0 r]. steps B R. done.
      * go Hr [AssignD0 reals r; MinAA reals a b0 r]. steps B R. done.
      * go Hr [AssignD0 reals r; MultAA reals a b0 r]. steps B R. done.
      * go Hr [AssignD0 reals r; DivAA reals a b0 r]. steps B R. done.
    + destruct b.
      * go Hr [PlusAA reals a b0 a]. steps B R. done.
      * go Hr [MinAA reals a b0 a]. steps B R. done.
      * go Hr [MultAA reals a b0 a]. steps B R. done.
      * go Hr [DivAA reals a b0 a]. steps B R. done.
  - go Hr [DivAA reals a b b]. steps B R. done.
  - apply negb_true_iff in C6.
    go Hr [NegSign reals b b; PlusAA reals b a b]. steps B R. done.
  - (* constant op a *)
    assert (Cs : forall r, r = kres k a -> generic (cst_op reals c cv a r) r /\
      breads (cst_op reals c cv a r) = [a] /\ bwrites (cst_op reals c cv a r) = [r] /\
      extra (cst_op reals c cv a r) = []).
    { intros r _. destruct c; cbn [cst_op];
        repeat match goal with |- context [if ?e then _ else _] => destruct e end;
        (split; [do 3 eexists; reflexivity|]); repeat split. }
    destruct k; cbn [knews kres app] in *; destruct (Cs _ eq_refl) as (G & G1 & G2 & G3).
    + go Hr [AssignD0 reals r; cst_op reals c cv a r]. cbn [tfold]. cst B R.
      rewrite (@tidy_generic _ _ _ _ r G); rewrite ?G1, ?G2, ?G3; [|solve [inb B]|solve [ind R]].
      done.
    + go Hr [cst_op reals c cv a a]. cbn [tfold].
      rewrite (@tidy_generic _ _ _ _ a G); rewrite ?G1, ?G2, ?G3; [|solve [inb B]|solve [ind R]].
      done.
  - (* sin *)
    assert (E1 : (b =? a) = false) by (apply Nat.eqb_neq; intros ->; apply (F a); cbn; auto).
    destruct k; cbn [knews kres app] in *.
    + cbn [nodupb] in C5. apply andb_prop in C5 as [C5 _]. apply negb_true_iff, sin_false in C5.
      assert (E2 : (b =? r) = false) by (apply Nat.eqb_neq; cbn in C5; intuition congruence).
      go Hr [AssignD0 reals r; AssignD0 reals b; SinOp reals a b r]. steps B R. spec B R.
      rewrite E1, E2. cbn [orb]. done.
    + go Hr [AssignD0 reals b; SinOp reals a b a]. steps B R. spec B R.
      rewrite E1. cbn [orb]. done.
  - (* cos *)
    assert (E1 : (b =? a) = false) by (apply Nat.eqb_neq; intros ->; apply (F a); cbn; auto).
    destruct k; cbn [knews kres app] in *.
    + cbn [nodupb] in C5. apply andb_prop in C5 as [C5 _]. apply negb_true_iff, sin_false in C5.
      assert (E2 : (b =? r) = false) by (apply Nat.eqb_neq; cbn in C5; intuition congruence).
      go Hr [AssignD0 reals r; AssignD0 reals b; CosOp reals a b r]. steps B R. spec B R.
      rewrite E1, E2. cbn [orb]. done.
    + go Hr [AssignD0 reals b; CosOp reals a b a]. steps B R. spec B R.
      rewrite E1. cbn [orb]. done.
  - (* helper *)
    cbn [prims] in Hr. cbn [supported] in C1. rewrite C1 in Hr.
    destruct (help_stores f a t C1) as (bs & Fs & F2).
    assert (Lt : a < N /\ t < N)
      by (split; apply B; rewrite ?in_app_iff; cbn [In]; intuition auto).
    destruct Lt as [La Lt].
    assert (Da : D a = true) by (apply R; cbn; auto).
    assert (Na : a <> t) by (intros ->; apply (F t); cbn; auto).
    destruct k; cbn [knews kres knew app] in *.
    + assert (Lr : r < N) by (apply B; cbn [In]; auto).
      assert (Ops : sops s' = sops s ++ map (@Plain reals)
        (AssignD0 reals r :: AssignD0 reals t :: bs ++ [HelpOp reals f a t r])).
      { assert (Q : Forall2 (fun (p : prim reals) b => forall T, p_op p T = [Plain b])
           (p_dflt reals r :: help_prims reals f a t ++
              [wr (fun _ => Plain (HelpOp reals f a t r)) r (fun T => fn reals f (T a))])
           (AssignD0 reals r :: AssignD0 reals t :: bs ++ [HelpOp reals f a t r])).
        { constructor; [reflexivity|].
          apply (Forall2_app F2). constructor; [reflexivity|constructor]. }
        eapply rprims_ops; [exact Q|exact Hr]. }
      destruct (@tfold_stores N a t bs La Lt Fs (sadd (sadd D [r]) [t]) (sdel (sdel W [r]) [t]))
        as (D1 & W1 & E & S1 & S2).
      { rewrite !sadd_true; auto. } { rewrite !sadd_true; cbn; auto. }
      exists (AssignD0 reals r :: AssignD0 reals t :: bs ++ [HelpOp reals f a t r]),
        (sadd D1 [r]), (sadd W1 [r]).
      split; [exact Ops|]. split.
      * cbn [tfold]. cst B R. cst B R. rewrite (tfold_app N bs _ _ _ E). cbn [tfold].
        assert (Ntr : (t =? r) = false).
        { cbn [nodupb] in C5. apply andb_prop in C5 as [C5 _]. apply negb_true_iff, sin_false in C5.
          apply Nat.eqb_neq. cbn in C5. intuition congruence. }
        rewrite (@tidy_generic N _ D1 W1 r); [reflexivity|do 3 eexists; cbn [shape]; rewrite Ntr; reflexivity|solve [inb B]|].
        cbn [breads In]. intros l Hl. apply S1. rewrite !sadd_true.
        destruct Hl as [<-|[]]. auto.
      * split.
        -- intros l Hl. rewrite sdel_true, sadd_true in Hl. rewrite sadd_true.
           destruct (proj2 Hl) as [H0|H0] || destruct (proj1 Hl) as [H0|H0]; auto. right. apply S1. rewrite !sadd_true. auto.
        -- intros l Hl. rewrite sadd_true in Hl. rewrite sadd_true.
           destruct Hl as [Hl|Hl]; [cbn in *; tauto|]. apply S2 in Hl.
           rewrite sadd_true, !sdel_true in Hl. cbn in *. tauto.
    + assert (Ops : sops s' = sops s ++ map (@Plain reals)
        (AssignD0 reals t :: bs ++ [HelpOp reals f a t a])).
      { assert (Q : Forall2 (fun (p : prim reals) b => forall T, p_op p T = [Plain b])
           (help_prims reals f a t ++
              [wr (fun _ => Plain (HelpOp reals f a t a)) a (fun T => fn reals f (T a))])
           (AssignD0 reals t :: bs ++ [HelpOp reals f a t a])).
        { apply (Forall2_app F2). constructor; [reflexivity|constructor]. }
        eapply rprims_ops; [exact Q|exact Hr]. }
      destruct (@tfold_stores N a t bs La Lt Fs (sadd D [t]) (sdel W [t]))
        as (D1 & W1 & E & S1 & S2).
      { rewrite !sadd_true; auto. } { rewrite !sadd_true; cbn; auto. }
      exists (AssignD0 reals t :: bs ++ [HelpOp reals f a t a]), (sadd D1 [a]), (sadd W1 [a]).
      split; [exact Ops|]. split.
      * cbn [tfold]. cst B R. rewrite (tfold_app N bs _ _ _ E). cbn [tfold].
        assert (Nta : (t =? a) = false) by (apply Nat.eqb_neq; congruence).
        rewrite (@tidy_generic N _ D1 W1 a); [reflexivity|do 3 eexists; cbn [shape]; rewrite Nta; reflexivity|solve [inb B]|].
        cbn [breads In]. intros l Hl. apply S1. rewrite !sadd_true.
        destruct Hl as [<-|[]]. auto.
      * split.
        -- intros l Hl. rewrite sdel_true, sadd_true in Hl. rewrite sadd_true.
           destruct (proj2 Hl) as [H0|H0] || destruct (proj1 Hl) as [H0|H0]; auto. right. apply S1. rewrite !sadd_true. auto.
        -- intros l Hl. rewrite sadd_true in Hl. rewrite sadd_true.
           destruct Hl as [Hl|Hl]; [cbn in *; tauto|]. apply S2 in Hl.
           rewrite sadd_true, !sdel_true in Hl. cbn in *. tauto.
  - (* fmin *)
    destruct k; cbn [knews kres app] in *.
    + go Hr [AssignD0 reals r; MinOp reals a b r (min_cov (@upd reals (sT s) r (zero reals)) a b)].
      steps B R. done.
    + go Hr [MinOp reals a b a (min_cov (sT s) a b)]. steps B R. done.
  - go Hr [MinOp reals a b b (min_cov (sT s) a b)]. steps B R. done.
  - go Hr [CondAssign reals cond a1 a2 res (sT s cond)]. steps B R. done.
  - go Hr [CondAssignS reals cond a res (sT s cond)]. steps B R. done.
  - go Hr [CondEqAssign reals cond a1 a2 res (sT s cond)]. steps B R. done.
  - go Hr [CondEqAssignS reals cond a res (sT s cond)]. steps B R. done.
  - (* vec_dot *)
    go Hr [AssignD0 reals r; VecDot reals va vb n r]. cbn [tfold]. cst B R.
    unfold tidy_op at 1.
    replace (below N (breads (VecDot reals va vb n r) ++ bwrites (VecDot reals va vb n r) ++
      extra (VecDot reals va vb n r))) with true.
    2:{ symmetry. apply below_iff. intros l Hl. apply B. cbn [breads bwrites extra] in Hl.
        rewrite ?in_app_iff in *. cbn [In] in *. tauto. }
    replace (forallb (sadd D [r]) (breads (VecDot reals va vb n r))) with true.
    2:{ symmetry. apply forallb_forall. intros l Hl. apply sadd_true. cbn [breads] in Hl.
        destruct (Nat.eq_dec r l) as [->|Nr]; [cbn; auto|]. right. apply R.
        cbn in Hl. rewrite ?in_app_iff in *. cbn [In] in *. tauto. }
    replace (sdel W [r] r || sin r (seq va n ++ seq vb n)) with false.
    2:{ symmetry. apply orb_false_iff. split.
        - destruct (sdel W [r] r) eqn:E; auto. apply sdel_true in E. cbn in E. tauto.
        - apply sin_false. apply F. cbn; auto. }
    cbn [andb]. done.
Qed.

