(* C18: jac_pat never leaves out a dependence.

   Two forms.  Values: if two points agree on the columns listed in a row, and
   the sweeps at both points take the same decisions, then the corresponding
   dependent has the same value at both (any arithmetic, binary64 included).
   Derivatives: a directional derivative computed by fos_forward vanishes if the
   direction is zero on the columns listed in the row (real arithmetic).
   Guards: SpSpec.patternable says which traces the code treats correctly; the
   theorems _refuted show that each exclusion is needed. *)
From Coq Require Import List ZArith Bool Arith Lia Reals Lra Sorted.
Require Import Verif.AdModel Verif.AdSpec Verif.AdRecord Verif.AdReal Verif.SpModel
  Verif.SpSpec Verif.SpProofs Verif.SpTangent.
Import ListNotations.
Set Implicit Arguments.
Unset Asymmetric Patterns.

(* The k-th dependent is independent of the columns missing in row k, as far as
   the points x, x' are concerned. *)
Definition row_covers (K : Arith) (rows : list (list nat)) (x x' : nat -> V K)
  (y y' : list (V K)) : Prop :=
  length y = length rows /\ length y' = length rows /\
  forall k row, nth_error rows k = Some row ->
    (forall j, In j row -> x j = x' j) -> nth_error y k = nth_error y' k.

Theorem C18_safe_pattern_covers (K : Arith) (ps x x' : nat -> V K) (g : mem K)
  (t : list (op K)) rows e e' :
  indopro_safe t = SRows rows ->
  patternable false (operations ps x g t) [] = true ->
  zos_forward ps x g t = Done e -> zos_forward ps x' g t = Done e' ->
  (0 <= frc e)%Z -> (0 <= frc e')%Z ->
  decisions false ps x g t = decisions false ps x' g t ->
  @row_covers K rows x x' (fy e) (fy e').
Proof.
  intros S P Z Z' F F' D.
  apply (@safe_sim K ps x x' t dinit [] [] (mkF g 0 [] 3%Z []) (mkF g 0 [] 3%Z []) e e' rows); auto.
  - intros l _ _. reflexivity.
  - split; [reflexivity|]. split; [reflexivity|]. intros [|k] row H; discriminate H.
Qed.

Theorem C18_tight_pattern_covers (K : Arith) (ps x x' : nat -> V K) (g : mem K)
  (t : list (op K)) rows e e' :
  (forall a b, ltb K a b = true -> ltb K b a = false) ->
  indopro_tight ps x g t = SRows rows ->
  patternable true (operations ps x g t) [] = true ->
  zos_forward ps x g t = Done e -> zos_forward ps x' g t = Done e' ->
  (0 <= frc e)%Z -> (0 <= frc e')%Z ->
  decisions true ps x g t = decisions true ps x' g t ->
  @row_covers K rows x x' (fy e) (fy e').
Proof.
  intros AS S P Z Z' F F' D.
  apply (@tight_sim K ps x x' AS t dinit [] [] (mkF g 0 [] 3%Z []) (mkF g 0 [] 3%Z []) e e' rows); auto.
  - intros l _ _. reflexivity.
  - split; [reflexivity|]. split; [reflexivity|]. intros [|k] row H; discriminate H.
Qed.

(* the tangents yd vanish where the direction v vanishes on the row *)
Definition tangent_covered (rows : list (list nat)) (v : nat -> R) (yd : list R) : Prop :=
  length yd = length rows /\
  forall k row, nth_error rows k = Some row -> (forall j, In j row -> v j = 0%R) ->
    nth_error yd k = Some 0%R.

Theorem C18_safe_pattern_derivative (ps x v : nat -> R) (g : mem reals)
  (t : list (op reals)) rows e :
  @indopro_safe reals t = SRows rows ->
  patternable false (@operations reals ps x g t) [] = true ->
  no_pow_at_zero ps x g t ->
  @fos_forward reals ps x v g (fun _ => 0%R) t = Some e -> (0 <= frc (tF e))%Z ->
  tangent_covered rows v (tyd e).
Proof.
  intros S P N F C.
  apply (@tangent_sim ps x v false t dinit [] [] (mkT (mkF g 0 [] 3%Z []) (fun _ => 0%R) []) e rows); auto.
  - intros l _ _. reflexivity.
  - split; [reflexivity|]. intros [|k] row H; discriminate H.
Qed.

Theorem C18_tight_pattern_derivative (ps x v : nat -> R) (g : mem reals)
  (t : list (op reals)) rows e :
  @indopro_tight reals ps x g t = SRows rows ->
  patternable true (@operations reals ps x g t) [] = true ->
  no_pow_at_zero ps x g t ->
  @fos_forward reals ps x v g (fun _ => 0%R) t = Some e -> (0 <= frc (tF e))%Z ->
  tangent_covered rows v (tyd e).
Proof.
  intros S P N F C.
  apply (@tangent_sim ps x v true t dinit [] [] (mkT (mkF g 0 [] 3%Z []) (fun _ => 0%R) []) e rows); auto.
  - intros l _ _. reflexivity.
  - split; [reflexivity|]. intros [|k] row H; discriminate H.
Qed.

(* The arrays of the index domains are always long enough for what is written to
   them: after every operation of either sweep. *)
Fixpoint after_safe (K : Arith) (bs : list (bop K)) (i : nat) (D : doms) : doms :=
  match bs with
  | [] => D
  | b :: bs' => after_safe bs' (if is_ind b then S i else i) (dsafe i b D)
  end.
Fixpoint after_tight (K : Arith) (bs : list (bop K * mem K)) (i : nat) (D : doms) : doms :=
  match bs with
  | [] => D
  | (b, T) :: bs' => after_tight bs' (if is_ind b then S i else i) (dtight i b T D)
  end.
Theorem C18_index_domains_fit (K : Arith) (bs : list (bop K)) l :
  length (didx (after_safe bs 0 dinit l)) <= dcap (after_safe bs 0 dinit l).
Proof.
  assert (forall bs i D, dfits D -> dfits (@after_safe K bs i D)) as H.
  { clear. induction bs as [|b bs IH]; intros i D F; cbn; auto. apply IH. now apply fits_dsafe. }
  apply H. intros k. cbn. lia.
Qed.
Theorem C18_tight_index_domains_fit (K : Arith) (bs : list (bop K * mem K)) l :
  length (didx (after_tight bs 0 dinit l)) <= dcap (after_tight bs 0 dinit l).
Proof.
  assert (forall bs i D, dfits D -> dfits (@after_tight K bs i D)) as H.
  { clear. induction bs as [|[b T] bs IH]; intros i D F; cbn; auto. apply IH. now apply fits_dtight. }
  apply H. intros k. cbn. lia.
Qed.

(* Rows list columns in increasing order, each once, and only columns of
   independents of the trace. *)
Definition good (n : nat) (r : list nat) : Prop := StronglySorted lt r /\ List.Forall (fun j => j < n) r.
Lemma merge_lb n a b : List.Forall (fun j => n < j) a -> List.Forall (fun j => n < j) b ->
  List.Forall (fun j => n < j) (merge a b).
Proof. rewrite !Forall_forall. intros Ha Hb j. rewrite merge_in. intros [H|H]; auto. Qed.
Lemma merge_sorted : forall a b, StronglySorted lt a -> StronglySorted lt b ->
  StronglySorted lt (merge a b).
Proof.
  induction a as [|p a IHa]; induction b as [|q b IHb]; intros Sa Sb; cbn [merge]; auto.
  change (StronglySorted lt
    (if p <? q then p :: merge a (q :: b) else if p =? q then q :: merge a b else q :: merge (p :: a) b)).
  apply StronglySorted_inv in Sa as Sa'. destruct Sa' as [Sa1 Fa].
  apply StronglySorted_inv in Sb as Sb'. destruct Sb' as [Sb1 Fb].
  destruct (p <? q) eqn:E1; [|destruct (p =? q) eqn:E2].
  - apply Nat.ltb_lt in E1. constructor; [now apply IHa|]. apply merge_lb; auto.
    constructor; auto. eapply Forall_impl; [|exact Fb]. cbn. lia.
  - apply Nat.eqb_eq in E2. subst q. constructor; [now apply IHa|]. now apply merge_lb.
  - apply Nat.ltb_ge in E1. apply Nat.eqb_neq in E2. constructor; [now apply IHb|].
    apply (@merge_lb q (p :: a) b); auto. constructor; [lia|].
    eapply Forall_impl; [|exact Fa]. cbn. lia.
Qed.
Lemma good_merge n a b : good n a -> good n b -> good n (merge a b).
Proof.
  intros [Sa Fa] [Sb Fb]. split; [now apply merge_sorted|].
  rewrite Forall_forall in *. intros j. rewrite merge_in. intros [H|H]; auto.
Qed.
Definition dgood n (D : doms) := forall l, good n (didx (D l)).
Lemma good_set n D l d : dgood n D -> good n (didx d) -> dgood n (dset D l d).
Proof. intros G H k. unfold dset. destruct (k =? l); auto. Qed.
Lemma good_copy n res arg D : dgood n D -> dgood n (copy_dom res arg D).
Proof. intros G. apply good_set; auto. apply G. Qed.
Lemma good_merge2 n res arg D : dgood n D -> dgood n (merge_2 res arg D).
Proof.
  intros G. unfold merge_2. destruct (_ =? 0); [now apply good_copy|]. destruct (res =? arg); auto.
  apply good_set; auto. apply good_merge; apply G.
Qed.
Lemma good_combine2 n res a1 a2 D : dgood n D -> dgood n (combine_2 res a1 a2 D).
Proof. intros G. unfold combine_2. apply good_merge2. destruct (res =? a1); auto. now apply good_copy. Qed.
Lemma good_merge3 n res a1 a2 D : dgood n D -> dgood n (merge_3 res a1 a2 D).
Proof. intros G. now apply good_merge2, good_merge2. Qed.
Lemma good_clear n res D : dgood n D -> dgood n (clear res D).
Proof. intros G. apply good_set; auto. split; constructor. Qed.
Lemma good_up n m D : n <= m -> dgood n D -> dgood m D.
Proof.
  intros L G l. destruct (G l) as [S F]. split; auto. eapply Forall_impl; [|exact F].
  cbn. lia.
Qed.
Lemma good_single n res D : dgood n D -> dgood (S n) (single res n D).
Proof.
  intros G. apply good_set; [apply good_up with (2 := G); lia|]. split; repeat constructor.
Qed.
Lemma good_dcopy n k : forall arg res q D, dgood n D -> dgood n (dcopy k arg res q D).
Proof. induction k; intros; cbn [dcopy]; auto using good_copy. Qed.
Lemma good_ddot n k : forall a1 a2 res q D, dgood n D -> dgood n (ddot k a1 a2 res q D).
Proof. induction k; intros; cbn [ddot]; auto using good_merge3. Qed.
Lemma good_daxpy n k : forall arg a1 a2 res q D, dgood n D -> dgood n (daxpy k arg a1 a2 res q D).
Proof. induction k; intros; cbn [daxpy]; auto using good_merge2, good_combine2. Qed.
Lemma good_dsafe (K : Arith) i (b : bop K) D : dgood i D -> dgood (if is_ind b then S i else i) (dsafe i b D).
Proof.
  intros G. destruct b; cbn [dsafe is_ind]; auto using good_copy, good_merge2, good_combine2,
    good_merge3, good_clear, good_single, good_dcopy, good_ddot, good_daxpy.
Qed.
Lemma good_dtight (K : Arith) i (b : bop K) T D : dgood i D -> dgood (if is_ind b then S i else i) (dtight i b T D).
Proof.
  intros G. destruct b; try (apply good_dsafe; exact G); cbn [dtight is_ind];
    repeat match goal with |- context [if ?c then _ else _] => destruct c end;
    auto using good_copy, good_combine2, good_clear.
Qed.
(* number of independents of a trace *)
Definition is_input (K : Arith) (o : op K) : bool :=
  match o with Plain (AssignInd _ _) | RefAssignInd _ _ => true | _ => false end.
Definition inputs (K : Arith) (t : list (op K)) : nat := length (filter (@is_input K) t).
Lemma inputs_cons (K : Arith) (T : mem K) o t :
  inputs (o :: t) = (if is_ind (resolve T o) then 1 else 0) + inputs t.
Proof.
  unfold inputs. cbn [filter].
  destruct o as [b| | | | | | | | | | | | | | | | | | | |]; try reflexivity. destruct b; reflexivity.
Qed.

Lemma good_rows n m (K : Arith) (b : bop K) D rows : n <= m -> dgood n D -> List.Forall (good m) rows ->
  List.Forall (good m) (rows ++ row_of b D).
Proof.
  intros L G F. apply Forall_app. split; auto. destruct b; cbn; auto. constructor; auto.
  now apply good_up with (2 := G).
Qed.
Lemma srun_good (K : Arith) (t : list (op K)) : forall i D rows rows', dgood i D ->
  List.Forall (good (i + inputs t)) rows ->
  srun t i D rows = SRows rows' -> List.Forall (good (i + inputs t)) rows'.
Proof.
  induction t as [|o t IH]; intros i D rows rows' G F R.
  - cbn in R. injection R as <-. exact F.
  - destruct o as [b| | | | | | | | | | | | | | | | | | | |]; try discriminate R.
    rewrite (inputs_cons (fun _ => zero K)) in *. cbn [resolve] in *.
    assert (R' : srun t (if is_ind b then S i else i) (dsafe i b D) (rows ++ row_of b D) = SRows rows').
    { cbn [srun] in R. destruct b; auto; discriminate R. }
    replace (i + ((if is_ind b then 1 else 0) + inputs t))
      with ((if is_ind b then S i else i) + inputs t) in * by (destruct (is_ind b); lia).
    eapply IH; [| |exact R'].
    + now apply good_dsafe.
    + eapply good_rows; [|exact G|exact F]. destruct (is_ind b); lia.
Qed.

Theorem C18_rows_sorted (K : Arith) (t : list (op K)) rows r :
  indopro_safe t = SRows rows -> In r rows ->
  StronglySorted lt r /\ (forall j, In j r -> j < inputs t).
Proof.
  intros H Hr.
  pose proof (@srun_good K t 0 dinit [] rows) as G.
  assert (dgood 0 dinit) as D0 by (intros l; split; constructor).
  specialize (G D0 ltac:(constructor) H). rewrite Forall_forall in G. destruct (G r Hr) as [S F].
  rewrite Forall_forall in F. split; auto.
Qed.

Lemma trow_good (K : Arith) (ps x : nat -> V K) (t : list (op K)) : forall i T D rows rows', dgood i D ->
  List.Forall (good (i + inputs t)) rows ->
  trow ps x t i T D rows = SRows rows' -> List.Forall (good (i + inputs t)) rows'.
Proof.
  induction t as [|o t IH]; intros i T D rows rows' G F R.
  - cbn in R. injection R as <-. exact F.
  - cbn [trow] in R. destruct (oob T o); [discriminate|]. set (b := resolve T o) in *.
    rewrite (inputs_cons T) in *. fold b in F |- *.
    assert (R' : trow ps x t (if is_ind b then S i else i) (zval_tight ps x i b T) (dtight i b T D)
                   (rows ++ row_of b D) = SRows rows').
    { destruct (zabort b T); [destruct b; discriminate R|]. destruct b; auto; discriminate R. }
    replace (i + ((if is_ind b then 1 else 0) + inputs t))
      with ((if is_ind b then S i else i) + inputs t) in * by (destruct (is_ind b); lia).
    eapply IH; [| |exact R'].
    + now apply good_dtight.
    + eapply good_rows; [|exact G|exact F]. destruct (is_ind b); lia.
Qed.
Theorem C18_tight_rows_sorted (K : Arith) (ps x : nat -> V K) g (t : list (op K)) rows r :
  indopro_tight ps x g t = SRows rows -> In r rows ->
  StronglySorted lt r /\ (forall j, In j r -> j < inputs t).
Proof.
  intros H Hr.
  pose proof (@trow_good K ps x t 0 g dinit [] rows) as G.
  assert (dgood 0 dinit) as D0 by (intros l; split; constructor).
  specialize (G D0 ltac:(constructor) H). rewrite Forall_forall in G. destruct (G r Hr) as [S F].
  rewrite Forall_forall in F. split; auto.
Qed.

(* ------------------------------------------------------------------ *)
(* ------------------------------------------------------------------ *)
(* evaluates a sweep of an abstract arithmetic *)
Ltac sweep := match goal with |- exists e, ?l = Done e /\ _ =>
  let v := eval vm_compute in l in
  match v with Done ?s => exists s; split; [vm_cast_no_check (eq_refl (Done s))|] end end.
(* A case that meets the hypotheses of the four theorems:
     y0 = condassign(x2; sin(x0*x1), x0), y1 = x1 *)
Definition ex_trace (K : Arith) (c : V K) : list (op K) :=
  [Plain (AssignInd K 0); Plain (AssignInd K 1); Plain (AssignInd K 2);
   Plain (MultAA K 0 1 3); Plain (SinOp K 3 4 5); Plain (CondAssign K 2 5 0 6 c);
   Plain (AssignDep K 6); Plain (AssignDep K 1); Plain (DeathNot K 0 6)].
Lemma ex_safe_rows K c : indopro_safe (ex_trace K c) = SRows [[0; 1]; [1]].
Proof. reflexivity. Qed.
Lemma ex_tight_rows (K : Arith) ps x g c : ltb K (zero K) (x 2) = false ->
  @indopro_tight K ps x g (ex_trace K c) = SRows [[0]; [1]].
Proof. intros H. vm_compute in H. vm_compute. now rewrite H. Qed.
Lemma ex_patternable (K : Arith) ps x g c m : patternable m (@operations K ps x g (ex_trace K c)) [] = true.
Proof. destruct m; reflexivity. Qed.
Lemma ex_runs (K : Arith) ps x g c : exists e, @zos_forward K ps x g (ex_trace K c) = Done e /\
  (0 <= frc e)%Z /\
  fy e = [if ltb K (zero K) (x 2) then fn K Fsin (mul K (x 0) (x 1)) else x 0; x 1].
Proof.
  sweep. split.
  - cbn. repeat match goal with |- context [if ?c then _ else _] => destruct c end; cbn; lia.
  - reflexivity.
Qed.
Lemma ex_decisions (K : Arith) m ps x g c :
  @decisions K m ps x g (ex_trace K c) = [Branch K (ltb K (zero K) (x 2))].
Proof. destruct m; reflexivity. Qed.

(* ------------------------------------------------------------------ *)
(* What goes wrong without the guards.  misses t rows k j x x': the points differ
   in column j only, the sweeps agree in all decisions, column j is not in row k,
   yet dependent k changes. *)
Definition misses (ps : nat -> R) (g : mem reals) (tight : bool) (t : list (op reals))
  (rows : list (list nat)) (k j : nat) (x x' : nat -> R) : Prop :=
  (forall i, i <> j -> x i = x' i) /\
  (exists row, nth_error rows k = Some row /\ ~ In j row) /\
  @decisions reals tight ps x g t = @decisions reals tight ps x' g t /\
  exists e e', @zos_forward reals ps x g t = Done e /\ @zos_forward reals ps x' g t = Done e' /\
    (0 <= frc e)%Z /\ (0 <= frc e')%Z /\ nth_error (fy e) k <> nth_error (fy e') k.
Definition pt (a b c : R) : nat -> R := fun i => match i with 0 => a | 1 => b | 2 => c | _ => 0%R end.

(* a / (temporary): y = x0 / (x1*x1) *)
Definition div_prog (K : Arith) : prog K :=
  Do (CInd K 0) (Do (CInd K 1) (Do (CBin K BMul (Fresh 2) 1 1)
  (Do (CDivR K 0 2) (Do (CDep K 2) (Ret K))))).
Definition div_tape (K : Arith) : list (op K) :=
  [Plain (AssignInd K 0); Plain (AssignInd K 1); Plain (AssignD0 K 2); Plain (MultAA K 1 1 2);
   Plain (DivAA K 0 2 2); Plain (AssignDep K 2); Plain (DeathNot K 0 2)].
Lemma div_recorded K g ps x : @record K g [] 2 ps x (div_prog K) = Some (div_tape K).
Proof. reflexivity. Qed.
Lemma div_pattern K : indopro_safe (div_tape K) = SRows [[0]].
Proof. reflexivity. Qed.
Lemma div_tpattern K ps x g : @indopro_tight K ps x g (div_tape K) = SRows [[0]].
Proof. reflexivity. Qed.
Lemma div_value K g ps x : exists e, @zos_forward K ps x g (div_tape K) = Done e /\
   frc e = 3%Z /\ fy e = [dvd K (x 0) (mul K (x 1) (x 1))].
Proof. sweep. split; reflexivity. Qed.
Lemma div_decisions K g ps x m : @decisions K m ps x g (div_tape K) = [].
Proof. destruct m; reflexivity. Qed.

Theorem C18_divide_by_temporary_refuted (ps : nat -> R) (g : mem reals) :
  exists p t, @record reals g [] 2 ps (pt 1 1 0) p = Some t /\
    @indopro_safe reals t = SRows [[0]] /\ @indopro_tight reals ps (pt 1 1 0) g t = SRows [[0]] /\
    misses ps g true t [[0]] 0 1 (pt 1 1 0) (pt 1 2 0).
Proof.
  exists (div_prog reals), (div_tape reals).
  split; [apply div_recorded|]. split; [apply div_pattern|]. split; [apply div_tpattern|].
  split. { intros [|[|i]] H; cbn; auto; lia. }
  split. { exists [0]. split; [reflexivity|]. intros [H|[]]; discriminate. }
  split. { now rewrite !(@div_decisions reals). }
  destruct (@div_value reals g ps (pt 1 1 0)) as (e & Z & F & Y).
  destruct (@div_value reals g ps (pt 1 2 0)) as (e' & Z' & F' & Y').
  exists e, e'. do 2 (split; [assumption|]). rewrite F, F', Y, Y'.
  do 2 (split; [lia|]). cbn. intros [= H]. lra.
Qed.

(* condassign(y, x0, x1, y) with y = x2 before *)
Definition cond_prog (K : Arith) : prog K :=
  Do (CInd K 0) (Do (CInd K 1) (Do (CInd K 2) (Do (CCopy K 2 3)
  (Do (CCond K 3 0 1 3) (Do (CDep K 3) (Ret K)))))).
Definition cond_tape (K : Arith) (c : V K) : list (op K) :=
  [Plain (AssignInd K 0); Plain (AssignInd K 1); Plain (AssignInd K 2); Plain (AssignA K 2 3);
   Plain (CondAssign K 0 1 3 3 c); Plain (AssignDep K 3); Plain (DeathNot K 0 3)].
Lemma cond_recorded K g ps x : @record K g [] 3 ps x (cond_prog K) = Some (cond_tape K (x 0)).
Proof. reflexivity. Qed.
Lemma cond_pattern K c : indopro_safe (cond_tape K c) = SRows [[1]].
Proof. reflexivity. Qed.
Lemma cond_value K g ps x c : exists e, @zos_forward K ps x g (cond_tape K c) = Done e /\
   (0 <= frc e)%Z /\ fy e = [if ltb K (zero K) (x 0) then x 1 else x 2].
Proof.
  sweep. split; [|reflexivity].
  cbn. repeat match goal with |- context [if ?c then _ else _] => destruct c end; cbn; lia.
Qed.
Lemma cond_decisions K g ps x c m : @decisions K m ps x g (cond_tape K c) = [Branch K (ltb K (zero K) (x 0))].
Proof. destruct m; reflexivity. Qed.
Theorem C18_condassign_to_second_operand_refuted (ps : nat -> R) (g : mem reals) :
  exists p t, @record reals g [] 3 ps (pt (-1) 0 0) p = Some t /\
    @indopro_safe reals t = SRows [[1]] /\
    misses ps g false t [[1]] 0 2 (pt (-1) 0 0) (pt (-1) 0 1).
Proof.
  exists (cond_prog reals), (cond_tape reals (-1)%R).
  split; [apply (@cond_recorded reals)|]. split; [apply (@cond_pattern reals)|].
  split. { intros [|[|[|i]]] H; cbn; auto; try lia; try contradiction; try (exfalso; apply H; reflexivity). }
  split. { exists [1]. split; [reflexivity|]. intros [H|[]]; discriminate. }
  split. { now rewrite !(@cond_decisions reals). }
  destruct (@cond_value reals g ps (pt (-1) 0 0) (-1)%R) as (e & Z & F & Y).
  destruct (@cond_value reals g ps (pt (-1) 0 1) (-1)%R) as (e' & Z' & F' & Y').
  exists e, e'. do 4 (split; [assumption|]). rewrite Y, Y'.
  assert (ltb reals (zero reals) (-1)%R = false) as N.
  { cbn. unfold Rltb. destruct (Rlt_dec 0 (-1)); auto. lra. }
  cbn [pt]. rewrite N. cbn. intros [= H]. lra.
Qed.

(* y[0] = a * x[0] + y[0] with vec_axpy *)
Definition axpy_prog (K : Arith) : prog K :=
  Do (CInd K 0) (Do (CInd K 1) (Do (CInd K 2)
  (Do (CVecAxpy K 2 0 1 2 1) (Do (CDep K 2) (Ret K))))).
Definition axpy_tape (K : Arith) : list (op K) :=
  [Plain (AssignInd K 0); Plain (AssignInd K 1); Plain (AssignInd K 2);
   Plain (VecAxpy K 0 1 2 1 2); Plain (AssignDep K 2); Plain (DeathNot K 0 2)].
Lemma axpy_recorded K g ps x : @record K g [] 2 ps x (axpy_prog K) = Some (axpy_tape K).
Proof. reflexivity. Qed.
Lemma axpy_value K g ps x : exists e, @zos_forward K ps x g (axpy_tape K) = Done e /\
   frc e = 3%Z /\ fy e = [add K (mul K (x 0) (x 1)) (x 2)].
Proof. sweep. split; reflexivity. Qed.
Theorem C18_axpy_in_place_refuted (ps : nat -> R) (g : mem reals) :
  exists p t, @record reals g [] 2 ps (pt 0 0 0) p = Some t /\
    @indopro_safe reals t = SRows [[0; 1]] /\ @indopro_tight reals ps (pt 0 0 0) g t = SRows [[0; 1]] /\
    misses ps g true t [[0; 1]] 0 2 (pt 0 0 0) (pt 0 0 1).
Proof.
  exists (axpy_prog reals), (axpy_tape reals).
  split; [apply axpy_recorded|]. split; [reflexivity|]. split; [reflexivity|].
  split. { intros [|[|[|i]]] H; cbn; auto; lia. }
  split. { exists [0; 1]. split; [reflexivity|]. intros [H|[H|[]]]; discriminate. }
  split. { reflexivity. }
  destruct (@axpy_value reals g ps (pt 0 0 0)) as (e & Z & F & Y).
  destruct (@axpy_value reals g ps (pt 0 0 1)) as (e' & Z' & F' & Y').
  exists e, e'. do 2 (split; [assumption|]). rewrite F, F', Y, Y'.
  do 2 (split; [lia|]). cbn. intros [= H]. lra.
Qed.

(* tight mode: v = x2; condassign(v, x0, x1); y = fmin(temporary v, x0) *)
Definition stale_prog (K : Arith) : prog K :=
  Do (CInd K 0) (Do (CInd K 1) (Do (CInd K 2) (Do (CCopy K 2 3) (Do (CCondS K 3 0 1)
  (Do (CMin K Temp 3 0) (Do (CDep K 3) (Ret K))))))).
Definition stale_tape (K : Arith) (c m : V K) : list (op K) :=
  [Plain (AssignInd K 0); Plain (AssignInd K 1); Plain (AssignInd K 2); Plain (AssignA K 2 3);
   Plain (CondAssignS K 0 1 3 c); Plain (MinOp K 3 0 3 m); Plain (AssignDep K 3); Plain (DeathNot K 0 3)].
Lemma stale_recorded (K : Arith) g ps x : ltb K (zero K) (x 0) = true -> ltb K (x 0) (x 1) = true ->
  @record K g [] 3 ps x (stale_prog K) = Some (stale_tape K (x 0) (zero K)).
Proof. intros H H1. vm_compute in H, H1. vm_compute. rewrite H, H1. reflexivity. Qed.
Lemma stale_pattern (K : Arith) ps x g c m : ltb K (zero K) (x 0) = true -> ltb K (x 2) (x 0) = true ->
  @indopro_tight K ps x g (stale_tape K c m) = SRows [[1]].
Proof. intros H H1. vm_compute in H, H1. vm_compute. rewrite H, H1. reflexivity. Qed.
Lemma stale_value K g ps x c m : exists e, @zos_forward K ps x g (stale_tape K c m) = Done e /\
   (0 <= frc e)%Z /\ (ltb K (zero K) (x 0) = true -> ltb K (x 0) (x 1) = true -> fy e = [x 0]).
Proof.
  sweep. split.
  - cbn. repeat match goal with |- context [if ?c then _ else _] => destruct c end; cbn; lia.
  - intros H H1. vm_compute in H, H1. cbn [fy]. rewrite H, H1. reflexivity.
Qed.
Lemma stale_decisions K g ps x c m : ltb K (zero K) (x 0) = true -> ltb K (x 0) (x 1) = true ->
  @decisions K true ps x g (stale_tape K c m) = [Branch K true; Branch K true].
Proof. intros H H1. vm_compute in H, H1. vm_compute. rewrite H, H1. reflexivity. Qed.
Theorem C18_tight_short_condassign_refuted (ps : nat -> R) (g : mem reals) :
  exists p t, @record reals g [] 3 ps (pt 1 5 0) p = Some t /\
    @indopro_tight reals ps (pt 1 5 0) g t = SRows [[1]] /\
    misses ps g true t [[1]] 0 0 (pt 1 5 0) (pt 2 5 0).
Proof.
  assert (L : forall a b, (a < b)%R -> ltb reals a b = true).
  { intros a b H. cbn. unfold Rltb. destruct (Rlt_dec a b); auto. }
  exists (stale_prog reals), (stale_tape reals 1%R 0%R).
  split; [apply (@stale_recorded reals); apply L; cbn; lra|].
  split; [apply (@stale_pattern reals); apply L; cbn; lra|].
  split. { intros [|[|[|i]]] H; cbn; auto; lia. }
  split. { exists [1]. split; [reflexivity|]. intros [H|[]]; discriminate. }
  split. { rewrite !(@stale_decisions reals); auto; apply L; cbn; lra. }
  destruct (@stale_value reals g ps (pt 1 5 0) 1%R 0%R) as (e & Z & F & Y).
  destruct (@stale_value reals g ps (pt 2 5 0) 1%R 0%R) as (e' & Z' & F' & Y').
  exists e, e'. do 4 (split; [assumption|]). rewrite Y, Y'; try (apply L; cbn; lra).
  cbn. intros [= H]. lra.
Qed.

Print Assumptions C18_safe_pattern_covers.
Print Assumptions C18_tight_pattern_covers.
Print Assumptions C18_safe_pattern_derivative.
Print Assumptions C18_tight_pattern_derivative.
Print Assumptions C18_divide_by_temporary_refuted.
