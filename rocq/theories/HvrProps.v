(* C52: hov_ti_reverse and hov_reverse, row by row. *)
From Coq Require Import List ZArith Bool Arith Lia FunctionalExtensionality.
Require Import Verif.AdModel Verif.HosModel Verif.HrvModel Verif.VrvModel Verif.VrvProofs Verif.VrvRun Verif.HvrModel.
Import ListNotations.
Set Implicit Arguments.
Set Asymmetric Patterns.

Section Any.
Variable K : Arith.
Notation val := (V K).
Notation vmem := (mem K).
Notation rows := (rows K).
Variable eps : val.

(* what happens to the coefficients and to the stack does not depend on the adjoints *)
Lemma hrcopy_T k n arg res : forall q (T : rows) F A F2 A2 st,
  let '(T', _, _, st') := @hrcopy K k n arg res q T F A st in
  let '(T2', _, _, st2') := @hrcopy K k n arg res q T F2 A2 st in T' = T2' /\ st' = st2'.
Proof.
  induction n as [|n IH]; intros q T F A F2 A2 st; cbn [hrcopy]; auto.
  destruct (if eqb K (F (res + q)) (zero K) then _ else _) as [F' A'].
  destruct (if eqb K (F2 (res + q)) (zero K) then _ else _) as [F2' A2'].
  destruct (@gettayl K k (res + q) T st) as [T' st']. apply IH.
Qed.
Lemma hraxpy_T k n arg a1 a2 res : forall q (T : rows) F A F2 A2 st,
  let '(T', _, _, st') := @hraxpy K k n arg a1 a2 res q T F A st in
  let '(T2', _, _, st2') := @hraxpy K k n arg a1 a2 res q T F2 A2 st in T' = T2' /\ st' = st2'.
Proof.
  induction n as [|n IH]; intros q T F A F2 A2 st; cbn [hraxpy]; auto.
  destruct (if eqb K (F (res + q)) (zero K) then _ else _) as [F' A'].
  destruct (if eqb K (F2 (res + q)) (zero K) then _ else _) as [F2' A2'].
  destruct (@gettayl K k (res + q) T st) as [T' st']. apply IH.
Qed.
Lemma hrval_T k b (T : rows) F A F2 A2 st :
  match b with CeilOp _ res _ => eqb K (F res) (zero K) = true /\ eqb K (F2 res) (zero K) = true | _ => True end ->
  match @hrval K eps k b T F A st, @hrval K eps k b T F2 A2 st with
  | Some (T', _, _, st'), Some (T2', _, _, st2') => T' = T2' /\ st' = st2'
  | None, None => True
  | _, _ => False
  end.
Proof.
  intros H. destruct b; cbn [hrval]; unfold gettayl; cbv zeta; auto;
  try (repeat match goal with |- context [match ?e with _ => _ end] =>
     match type of e with prod _ _ => destruct e end end; auto; fail).
  - destruct H as [-> ->]. auto.
  - exact (@hrcopy_T k size arg res 0 T F A F2 A2 st).
  - exact (@hraxpy_T k size arg a1 a2 res 0 T F A F2 A2 st).
Qed.

(* Row l: the operations hov_reverse treats row by row.
   - no vec_axpy; no floor or ceil whose result has an adjoint;
   - no fabs whose result has an adjoint in a row other than the first. *)
Definition rowfine (l : nat) (b : bop K) (F : vmem) : Prop :=
  match b with
  | VecAxpy _ _ _ _ _ => False
  | FloorOp _ res _ | CeilOp _ res _ => eqb K (F res) (zero K) = true
  | AbsVal _ res _ => l = 0 \/ eqb K (F res) (zero K) = true
  | _ => True
  end.
Lemma hvrows_row p k b (T : rows) F A st : 0 < p -> 
  (forall l, l < p -> rowfine l b (F l)) ->
  match @hvrows K eps p k b T F A st with
  | Some (T', F', A', st') => forall l, l < p -> @hrval K eps k b T (F l) (A l) st = Some (T', F' l, A' l, st')
  | None => forall l, l < p -> @hrval K eps k b T (F l) (A l) st = None
  end.
Proof.
  intros Hp Fi. unfold hvrows.
  assert (Q : forall l, l < p ->
    match @hrval K eps k b T (F 0) (A 0) st, @hrval K eps k b T (F l) (A l) st with
    | Some (T', _, _, st'), Some (T2', _, _, st2') => T' = T2' /\ st' = st2'
    | None, None => True
    | _, _ => False
    end).
  { intros l L. apply hrval_T. pose proof (Fi 0 Hp) as F0. pose proof (Fi l L) as Fl. destruct b; auto. }
  destruct (@hrval K eps k b T (F 0) (A 0) st) as [[[[T' f0] a0] st']|].
  - assert (forallb (fun l => some (@hrval K eps k b T (F l) (A l) st)) (seq 0 p) = true) as ->.
    { apply forallb_forall. intros l L. apply in_seq in L. specialize (Q l ltac:(lia)).
      destruct (@hrval K eps k b T (F l) (A l) st) as [[[[? ?] ?] ?]|]; [reflexivity|contradiction]. }
    intros l L. rewrite (proj2 (Nat.ltb_lt l p) L). specialize (Q l L).
    destruct (@hrval K eps k b T (F l) (A l) st) as [[[[? ?] ?] ?]|]; [|contradiction]. destruct Q as [<- <-]. reflexivity.
  - intros l L. specialize (Q l L). destruct (@hrval K eps k b T (F l) (A l) st) as [[[[? ?] ?] ?]|]; [contradiction|reflexivity].
Qed.
Lemma hvval_row p k b (T : rows) F A st : 0 < p -> 
  (forall l, l < p -> rowfine l b (F l)) ->
  match @hvval K eps p k b T F A st with
  | Some (T', F', A', st') => forall l, l < p -> @hrval K eps k b T (F l) (A l) st = Some (T', F' l, A' l, st')
  | None => forall l, l < p -> @hrval K eps k b T (F l) (A l) st = None
  end.
Proof.
  intros Hp Fi. pose proof (@hvrows_row p k b T F A st Hp Fi) as Q.
  assert (Any : forall res, (forall l, l < p -> eqb K (F l res) (zero K) = true) -> @anyflag K p F res = false).
  { intros res H. unfold anyflag. destruct (existsb _ _) eqn:E; [|reflexivity]. apply existsb_exists in E.
    destruct E as (l & L & E). apply in_seq in L. rewrite H in E by lia. discriminate. }
  destruct b; try exact Q; cbn [hvval rowfine] in *.
  - assert (existsb (fun l => negb (eqb K (F l res) (zero K))) (seq 1 (p - 1)) = false) as ->; [|exact Q].
    destruct (existsb _ _) eqn:E; [|reflexivity]. apply existsb_exists in E.
    destruct E as (l & L & E). apply in_seq in L. destruct (Fi l ltac:(lia)) as [->|E']; [lia|]. rewrite E' in E. discriminate.
  - rewrite (Any res Fi). exact Q.
  - rewrite (Any res Fi). exact Q.
  - contradiction (Fi 0 Hp).
Qed.

Fixpoint row_back (l k : nat) (L : nat -> nat -> val) (ts : list (op K)) (s : hrstate K) : Prop :=
  match ts with
  | [] => True
  | o :: ts' => rowfine l (resolve (fun l => hrT s l 0) o) (hrF s) /\
      match @hrstep K eps k L o s with Some s' => row_back l k L ts' s' | None => True end
  end.
(* the sweep of hos_ti_reverse with the weights of row l meets only such operations *)
Definition row_fine (l d : nat) (L : nat -> nat -> val) (n m : nat) (gz : nat -> nat -> val) (st : list val)
  (t : list (op K)) : Prop :=
  row_back l (S d) L (rev t) (mkHR (@zrows K) (fun _ => zero K) (@zrows K) st gz n m).

(* row l of the sweep *)
Definition slice (l : nat) (v : hvstate K) : hrstate K :=
  mkHR (hvT v) (hvF v l) (hvA v l) (hvk v) (hvz v l) (hvi v) (hvd v).

Lemma hvstep_row p k L o (v : hvstate K) : 0 < p ->
  (forall l, l < p -> rowfine l (resolve (fun loc => hvT v loc 0) o) (hvF v l)) ->
  match @hvstep K eps p k L o v with
  | Some v' => forall l, l < p -> @hrstep K eps k (L l) o (slice l v) = Some (slice l v')
  | None => forall l, l < p -> @hrstep K eps k (L l) o (slice l v) = None
  end.
Proof.
  intros Hp Fi. unfold hvstep, hrstep. cbn [slice hrT hrF hrA hrk hrz hri hrd].
  set (b := resolve _ o) in *.
  pose proof (@hvval_row p k b (hvT v) (hvF v) (hvA v) (hvk v) Hp Fi) as Q.
  destruct (@hvval K eps p k b _ _ _ _) as [[[[T' F'] A'] st']|].
  - destruct b; intros q0 L0; rewrite (Q q0 L0); try reflexivity.
    + unfold slice. cbn [hvT hvF hvA hvk hvz hvi hvd]. rewrite (proj2 (Nat.ltb_lt q0 p) L0). reflexivity.
    + unfold slice. cbn [hvT hvF hvA hvk hvz hvi hvd]. rewrite (proj2 (Nat.ltb_lt q0 p) L0). reflexivity.
  - intros l L0. rewrite (Q l L0). reflexivity.
Qed.
Lemma hvrun_row p k L ts : 0 < p -> forall (v : hvstate K),
  (forall l, l < p -> row_back l k (L l) ts (slice l v)) ->
  match fold_left (fun s o => match s with Some s => @hvstep K eps p k L o s | None => None end) ts (Some v) with
  | Some v' => forall l, l < p ->
      fold_left (fun s o => match s with Some s => @hrstep K eps k (L l) o s | None => None end) ts (Some (slice l v)) = Some (slice l v')
  | None => forall l, l < p ->
      fold_left (fun s o => match s with Some s => @hrstep K eps k (L l) o s | None => None end) ts (Some (slice l v)) = None
  end.
Proof.
  intros Hp. induction ts as [|o ts IH]; intros v G; cbn [fold_left]; auto.
  pose proof (@hvstep_row p k L o v Hp) as S1. 
  specialize (S1 (fun l L0 => proj1 (G l L0))).
  destruct (@hvstep K eps p k L o v) as [v'|].
  - specialize (IH v'). assert (G' : forall l, l < p -> row_back l k (L l) ts (slice l v')).
    { intros l L0. pose proof (proj2 (G l L0)) as G2. cbn beta in G2. rewrite (S1 l L0) in G2. exact G2. }
    specialize (IH G').
    destruct (fold_left _ ts (Some v')); intros l L0; rewrite (S1 l L0); auto.
  - rewrite (fold_none (fun s o => @hvstep K eps p k L o s)). intros l L0. rewrite (S1 l L0).
    apply (fold_none (fun s o => @hrstep K eps k (L l) o s)).
Qed.

(* hov_ti_reverse with p rows of weights: row l is what hos_ti_reverse with the weights of row l
   stores, from the same Taylor stack; and it fails only where hos_ti_reverse fails *)
Theorem C52_rows p d (L : nat -> nat -> nat -> val) n m gz gnz st t : 0 < p ->
  (forall l, l < p -> row_fine l d (L l) n m (gz l) st t) ->
  match @hov_ti_reverse K eps d p L n m gz gnz st t with
  | Some v => forall l, l < p -> exists r,
      @hos_ti_reverse K eps d (L l) n m (@zrows K) (fun _ => zero K) (@zrows K) (gz l) st t = Some r /\ hvz v l = hrz r
  | None => forall l, l < p -> 
      @hos_ti_reverse K eps d (L l) n m (@zrows K) (fun _ => zero K) (@zrows K) (gz l) st t = None
  end.
Proof.
  intros Hp G. unfold hov_ti_reverse, hos_ti_reverse, hvrun, hrrun.
  pose proof (@hvrun_row p (S d) L (rev t) Hp
    (mkHV (fun _ _ => zero K) (fun _ _ => zero K) (fun _ _ _ => zero K) st gz gnz n m) G) as Q.
  destruct (fold_left _ (rev t) (Some (mkHV _ _ _ _ _ _ _ _))) as [v|].
  - intros l L0. exists (slice l v). split; [exact (Q l L0)|reflexivity].
  - intros l L0. exact (Q l L0).
Qed.

(* a condition on the trace alone *)
Definition rowwise (o : op K) : Prop :=
  match o with
  | Plain b => match b with VecAxpy _ _ _ _ _ | FloorOp _ _ _ | CeilOp _ _ _ | AbsVal _ _ _ => False | _ => True end
  | _ => False
  end.
Lemma rowwise_fine l d L n m gz st t : List.Forall rowwise t -> row_fine l d L n m gz st t.
Proof.
  intros H. unfold row_fine. assert (H' : List.Forall rowwise (rev t)).
  { apply List.Forall_forall. intros o Ho. apply in_rev in Ho. rewrite List.Forall_forall in H. auto. }
  clear H. revert H'. generalize (mkHR (@zrows K) (fun _ => zero K) (@zrows K) st gz n m). generalize (rev t).
  induction l0 as [|o ts IH]; intros s H; cbn [row_back]; auto. inversion H as [|? ? H1 H2]; subst. split.
  - destruct o; try contradiction. cbn [resolve]. destruct b; try contradiction; exact I.
  - destruct (hrstep _ _ _ _ _); auto.
Qed.
End Any.
