(* C54: the traceless sparsity pattern (adtl_indo) contains every input a result depends on. *)
From Coq Require Import List Arith Bool Lia Sorted Reals.
From Coquelicot Require Import Coquelicot.
Require Import Verif.IndoModel.
Import ListNotations.
Local Open Scope nat_scope.

(* ------------------------------------------------------------------ *)
(* specification                                                         *)

(* no object is assigned to itself, not even through condassign *)
Definition distinct {N} (c : call N) : Prop :=
  match c with
  | Asg x a | Condassign1 x _ a | Condeqassign1 x _ a => x <> a
  | Condassign r _ a1 a2 | Condeqassign r _ a1 a2 => r <> a1 /\ r <> a2
  | _ => True
  end.
Fixpoint legal {N} (p : prog N) : Prop :=
  match p with
  | Ret => True
  | Do c p => distinct c /\ legal p
  | If _ _ _ k => forall b, legal (k b)
  | Get _ k => forall v, legal (k v)
  end.

(* the objects a call writes, with the objects the new contents may come from *)
Definition objs {N} (x : operand N) : list nat := match x with Ob o => [o] | Const _ => [] end.
Definition writes {N} (c : call N) : list (nat * list nat) :=
  match c with
  | Ctor t | CtorD t _ | AsgD t _ => [(t, [])]
  | CtorCopy t a | Un _ t a | Asg t a => [(t, [a])]
  | Bin _ t x y | Fmax t x y | Fmin t x y | Ldexp t x y => [(t, objs x ++ objs y)]
  | PreStep _ t a | PostStep _ t a => [(a, [a]); (t, [a])]
  | Condassign r _ a1 a2 | Condeqassign r _ a1 a2 => [(r, [a1; a2])]
  | Condassign1 r _ a | Condeqassign1 r _ a => [(r, [r; a])]
  | OpAsg _ x y => [(x, x :: objs y)]
  | SetValue x _ => [(x, [x])]
  end.
(* the calls a run executes *)
Fixpoint executed {N} (p : prog N) (M : mem N) : list (call N) :=
  match p with
  | Ret => []
  | Do c p => c :: executed p (fst (exec M c))
  | If r x y k => executed (k (test N r (oval M x) (oval M y))) M
  | Get o k => executed (k (val (M o))) M
  end.
(* a chain of writes leads from object o0 to object o *)
Inductive chain (o0 : nat) : list (nat * list nat) -> nat -> Prop :=
| chain_here : chain o0 [] o0
| chain_pass ws r srcs o : chain o0 ws o -> o <> r -> chain o0 (ws ++ [(r, srcs)]) o
| chain_via ws r srcs s : chain o0 ws s -> In s srcs -> chain o0 (ws ++ [(r, srcs)]) r.

(* ------------------------------------------------------------------ *)
(* lists                                                                 *)
Lemma merge_in l1 l2 j : In j (merge l1 l2) <-> In j l1 \/ In j l2.
Proof.
  revert l2. induction l1 as [|a l1 IH]; [destruct l2; cbn; tauto|].
  induction l2 as [|b l2 IH2]; [cbn; tauto|].
  change (merge (a :: l1) (b :: l2)) with (if b <? a then b :: merge (a :: l1) l2 else a :: merge l1 (b :: l2)).
  destruct (b <? a); cbn [In]; [rewrite IH2|rewrite IH]; cbn [In]; tauto.
Qed.
Lemma unique_in l j : In j (unique l) <-> In j l.
Proof.
  induction l as [|a [|b l] IH]; [tauto|tauto|]. cbn [unique]. destruct (Nat.eqb_spec a b) as [->|Hn].
  - rewrite IH. cbn [In]. tauto.
  - cbn [In] in *. rewrite IH. tauto.
Qed.
Lemma list_eqb_eq l1 l2 : list_eqb l1 l2 = true -> l1 = l2.
Proof.
  revert l2. induction l1 as [|a l1 IH]; intros [|b l2]; cbn; try discriminate; [reflexivity|].
  intros H. apply andb_prop in H as [H1 H2]. apply Nat.eqb_eq in H1. apply IH in H2. congruence.
Qed.
Lemma add_in p v j : In j (add_to_pattern p v) <-> In j p \/ In j v.
Proof.
  unfold add_to_pattern. destruct (list_eqb p v) eqn:E; cbn [negb].
  - apply list_eqb_eq in E as ->. tauto.
  - destruct v as [|b v]; [cbn; tauto|]. rewrite unique_in, merge_in. tauto.
Qed.
Lemma take_in {N} (M : mem N) p x j : In j (take M p x) <-> In j p \/ In j (opat M x).
Proof. destruct x as [o|v]; cbn [take opat]; [apply add_in|cbn; tauto]. Qed.

Notation inc := (StronglySorted lt).
Lemma merge_sorted l1 l2 : StronglySorted le l1 -> StronglySorted le l2 -> StronglySorted le (merge l1 l2).
Proof.
  revert l2. induction l1 as [|a l1 IH]; [destruct l2; auto|].
  induction l2 as [|b l2 IH2]; [auto|]. intros S1 S2.
  change (merge (a :: l1) (b :: l2)) with (if b <? a then b :: merge (a :: l1) l2 else a :: merge l1 (b :: l2)).
  inversion S1 as [|? ? S1' F1]; inversion S2 as [|? ? S2' F2]; subst. rewrite List.Forall_forall in F1, F2.
  destruct (Nat.ltb_spec b a); constructor; auto; rewrite List.Forall_forall; intros j Hj; apply merge_in in Hj as [Hj|Hj].
  - destruct Hj as [<-|Hj]; [lia|]. specialize (F1 j Hj). lia.
  - auto.
  - auto.
  - destruct Hj as [<-|Hj]; [lia|]. specialize (F2 j Hj). lia.
Qed.
Lemma unique_sorted l : StronglySorted le l -> inc (unique l).
Proof.
  induction l as [|a [|b l] IH]; intros S; [constructor|repeat constructor|].
  inversion S as [|? ? S' F]; subst. specialize (IH S'). cbn [unique]. destruct (Nat.eqb_spec a b) as [->|Hn]; [exact IH|].
  constructor; [exact IH|]. rewrite List.Forall_forall in *. intros j Hj. change (In j (unique (b :: l))) in Hj. rewrite unique_in in Hj.
  inversion S' as [|? ? S'' F']; subst. rewrite List.Forall_forall in F'.
  assert (a <= b) by (apply F; now left). destruct Hj as [<-|Hj]; [lia|]. specialize (F' j Hj). lia.
Qed.
Lemma inc_le l : inc l -> StronglySorted le l.
Proof. induction 1; constructor; auto. eapply List.Forall_impl; [|eassumption]. intros; cbv beta; lia. Qed.
Lemma add_sorted p v : inc p -> inc v -> inc (add_to_pattern p v).
Proof.
  intros Hp Hv. unfold add_to_pattern. destruct (list_eqb p v); cbn [negb]; [exact Hp|]. destruct v; [exact Hp|].
  apply unique_sorted, merge_sorted; now apply inc_le.
Qed.

(* ------------------------------------------------------------------ *)
(* two runs                                                              *)
Section Two.
Variables (N : dnum) (ok : nat -> Prop).
Implicit Types M : mem N.
Definition clean (b : obj N) : Prop := forall j, In j (pat b) -> ok j.
Definition alike M1 M2 : Prop := forall o, pat (M1 o) = pat (M2 o) /\ (clean (M1 o) -> val (M1 o) = val (M2 o)).
Definition alike_obj (b1 b2 : obj N) : Prop := pat b1 = pat b2 /\ (clean b1 -> val b1 = val b2).

Lemma set_alike M1 M2 o b1 b2 : alike M1 M2 -> alike_obj b1 b2 -> alike (set M1 o b1) (set M2 o b2).
Proof. intros A B o'. unfold set. destruct (o' =? o); [exact B|apply A]. Qed.
Lemma take_alike M1 M2 p x : alike M1 M2 -> take M1 p x = take M2 p x.
Proof. intros A. destruct x as [o|v]; cbn; [|reflexivity]. now rewrite (proj1 (A o)). Qed.
Lemma oval_alike M1 M2 x : alike M1 M2 -> (forall j, In j (opat M1 x) -> ok j) -> oval M1 x = oval M2 x.
Proof. intros A H. destruct x as [o|v]; cbn in *; [|reflexivity]. now apply (proj2 (A o)). Qed.
Lemma assign_alike M1 M2 x a : x <> a -> alike M1 M2 -> alike (assign M1 x a) (assign M2 x a).
Proof.
  intros Hn A. unfold assign. unfold set at 2 3 4 5 6 7 8 9 10 11 12. rewrite !Nat.eqb_refl.
  intros o. unfold set. rewrite ?Nat.eqb_refl. destruct (Nat.eqb_spec o x) as [->|Ho]; [|apply A].
  destruct (Nat.eqb_spec a x) as [->|_]; [congruence|]. cbn [pat val]. destruct (A a) as [A1 A2]. rewrite <- A1. split; [reflexivity|].
  intros C. apply A2. intros j Hj. apply C. cbn [pat]. rewrite add_in. tauto.
Qed.
Lemma get_set M o b o' : set M o b o' = if o' =? o then b else M o'.
Proof. reflexivity. Qed.

Lemma exec_alike c M1 M2 : distinct c -> alike M1 M2 -> snd (exec M1 c) = snd (exec M2 c) ->
  alike (fst (exec M1 c)) (fst (exec M2 c)).
Proof.
  intros Dc A.
  assert (Ap : forall a, pat (M1 a) = pat (M2 a)) by (intros a; apply A).
  assert (Av : forall a, (forall j, In j (pat (M1 a)) -> ok j) -> val (M1 a) = val (M2 a)) by (intros a; apply A).
  destruct c as [t|t v|t a|f t a|f t x y|f t a|f t a|t x y|t x y|t x y|r c a1 a2|r c a|r c a1 a2|r c a|x v|x a|f x y|x v];
    cbn [exec distinct] in *.
  - intros _. apply set_alike; [exact A|]. split; reflexivity.
  - intros _. apply set_alike; [exact A|]. split; reflexivity.
  - intros _. apply set_alike; [exact A|]. split; cbn [pat val]; [now rewrite Ap|]. intros C. apply Av. intros j Hj. apply C. cbn [pat]. rewrite add_in. tauto.
  - assert (Q : alike (set M1 t (mkObj (f1 N f (val (M1 a))) (add_to_pattern [] (pat (M1 a)))))
                      (set M2 t (mkObj (f1 N f (val (M2 a))) (add_to_pattern [] (pat (M2 a)))))).
    { apply set_alike; [exact A|]. split; cbn [pat val]; [now rewrite Ap|]. intros C. f_equal. apply Av. intros j Hj. apply C. cbn [pat]. rewrite add_in. tauto. }
    destruct f; cbn [fst snd]; try (intros _; exact Q); intros E; injection E as E; (apply set_alike; [exact A|]); split; cbn [pat val]; auto.
  - intros _. cbn [fst]. apply set_alike; [exact A|]. split; cbn [pat val]; [now rewrite !(take_alike _ _ _ _ A)|].
    intros C. f_equal; apply oval_alike; auto; intros j Hj; apply C; cbn [pat]; rewrite !take_in; tauto.
  - intros _. cbn [fst]. rewrite !get_set, !Nat.eqb_refl. apply set_alike; [apply set_alike; [exact A|]|]; split; cbn [pat val]; rewrite ?Ap; try reflexivity;
      intros C; f_equal; apply Av; intros j Hj; apply C; cbn [pat]; rewrite ?add_in, <- ?Ap; tauto.
  - intros _. cbn [fst]. rewrite !get_set, !Nat.eqb_refl. apply set_alike; [apply set_alike; [exact A|]|]; split; cbn [pat val]; rewrite ?Ap; try reflexivity;
      intros C; first [apply Av | f_equal; apply Av]; intros j Hj; apply C; cbn [pat]; rewrite ?add_in, <- ?Ap; tauto.
  - destruct (test N Lt (f2 N Sub (oval M1 x) (oval M1 y)) (nil_ N)), (test N Lt (f2 N Sub (oval M2 x) (oval M2 y)) (nil_ N));
      try (destruct (test N Gt (f2 N Sub (oval M1 x) (oval M1 y)) (nil_ N))); try (destruct (test N Gt (f2 N Sub (oval M2 x) (oval M2 y)) (nil_ N)));
      cbn [fst snd]; intros E; try discriminate; (apply set_alike; [exact A|]); (split; cbn [pat val]; [now rewrite !(take_alike _ _ _ _ A)|]);
      intros C; apply oval_alike; auto; intros j Hj; apply C; cbn [pat]; rewrite ?take_in; tauto.
  - destruct (test N Lt (f2 N Sub (oval M1 x) (oval M1 y)) (nil_ N)), (test N Lt (f2 N Sub (oval M2 x) (oval M2 y)) (nil_ N));
      try (destruct (test N Gt (f2 N Sub (oval M1 x) (oval M1 y)) (nil_ N))); try (destruct (test N Gt (f2 N Sub (oval M2 x) (oval M2 y)) (nil_ N)));
      cbn [fst snd]; intros E; try discriminate; (apply set_alike; [exact A|]); (split; cbn [pat val]; [now rewrite !(take_alike _ _ _ _ A)|]);
      intros C; apply oval_alike; auto; intros j Hj; apply C; cbn [pat]; rewrite ?take_in; tauto.
  - intros _. cbn [fst pat val]. apply set_alike; [exact A|]. split; cbn [pat val]; [now rewrite !(take_alike _ _ _ _ A)|].
    intros C. f_equal; [|f_equal]; apply oval_alike; auto; intros j Hj; apply C; cbn [pat]; rewrite !take_in; tauto.
  - destruct Dc. destruct (pos N M1 c), (pos N M2 c); cbn [fst snd]; intros E; try discriminate; now apply assign_alike.
  - destruct (pos N M1 c), (pos N M2 c); cbn [fst snd]; intros E; try discriminate; auto using assign_alike.
  - destruct Dc. destruct (nonneg N M1 c), (nonneg N M2 c); cbn [fst snd]; intros E; try discriminate; now apply assign_alike.
  - destruct (nonneg N M1 c), (nonneg N M2 c); cbn [fst snd]; intros E; try discriminate; auto using assign_alike.
  - intros _. apply set_alike; [exact A|]. split; reflexivity.
  - intros _. now apply assign_alike.
  - intros _. cbn [fst]. apply set_alike; [exact A|]. split; cbn [pat val]; [now rewrite Ap, (take_alike _ _ _ _ A)|].
    intros C. f_equal; [apply Av|apply oval_alike; auto]; intros j Hj; apply C; cbn [pat]; rewrite take_in; tauto.
  - intros _. apply set_alike; [exact A|]. split; cbn [pat val]; [apply Ap|reflexivity].
Qed.
Lemma exec_log_length c M1 M2 l1 l2 : snd (exec M1 c) ++ l1 = snd (exec M2 c) ++ l2 -> snd (exec M1 c) = snd (exec M2 c) /\ l1 = l2.
Proof.
  destruct c as [t|t v|t a|f t a|f t x y|f t a|f t a|t x y|t x y|t x y|r c a1 a2|r c a|r c a1 a2|r c a|x v|x a|f x y|x v]; cbn [exec].
  all: try (cbn [snd app]; auto; fail).
  - destruct f; cbn [snd app]; auto; intros E; injection E; intros; subst; split; congruence.
  - destruct (test N Lt (f2 N Sub (oval M1 x) (oval M1 y)) (nil_ N)), (test N Lt (f2 N Sub (oval M2 x) (oval M2 y)) (nil_ N));
      try (destruct (test N Gt (f2 N Sub (oval M1 x) (oval M1 y)) (nil_ N))); try (destruct (test N Gt (f2 N Sub (oval M2 x) (oval M2 y)) (nil_ N)));
      cbn [snd app]; intros E; try discriminate; injection E as E; auto.
  - destruct (test N Lt (f2 N Sub (oval M1 x) (oval M1 y)) (nil_ N)), (test N Lt (f2 N Sub (oval M2 x) (oval M2 y)) (nil_ N));
      try (destruct (test N Gt (f2 N Sub (oval M1 x) (oval M1 y)) (nil_ N))); try (destruct (test N Gt (f2 N Sub (oval M2 x) (oval M2 y)) (nil_ N)));
      cbn [snd app]; intros E; try discriminate; injection E as E; auto.
  - destruct (pos N M1 c), (pos N M2 c); cbn [snd app]; intros E; try discriminate; injection E as E; auto.
  - destruct (pos N M1 c), (pos N M2 c); cbn [snd app]; intros E; try discriminate; injection E as E; auto.
  - destruct (nonneg N M1 c), (nonneg N M2 c); cbn [snd app]; intros E; try discriminate; injection E as E; auto.
  - destruct (nonneg N M1 c), (nonneg N M2 c); cbn [snd app]; intros E; try discriminate; injection E as E; auto.
Qed.
Lemma run_alike p : forall M1 M2, legal p -> alike M1 M2 -> snd (run p M1) = snd (run p M2) ->
  alike (fst (run p M1)) (fst (run p M2)).
Proof.
  induction p as [|c p IH|r x y k IH|o k IH]; intros M1 M2 Lp A; cbn [run legal] in *; [auto| | |].
  - destruct Lp as [Dc Lp]. pose proof (exec_alike c M1 M2 Dc A) as X.
    pose proof (exec_log_length c M1 M2 (snd (run p (fst (exec M1 c)))) (snd (run p (fst (exec M2 c))))) as Y.
    destruct (exec M1 c) as [M1' l1], (exec M2 c) as [M2' l2]. cbn [fst snd] in *.
    specialize (IH M1' M2' Lp). destruct (run p M1') as [M1'' l1'], (run p M2') as [M2'' l2']. cbn [fst snd] in *.
    intros E. destruct (Y E) as [E1 E2]. auto.
  - specialize (IH (test N r (oval M1 x) (oval M1 y)) M1 M2 (Lp _) A).
    destruct (run (k (test N r (oval M1 x) (oval M1 y))) M1) as [M1' l1] eqn:E1.
    destruct (run (k (test N r (oval M2 x) (oval M2 y))) M2) as [M2' l2] eqn:E2. cbn [fst snd] in *.
    intros E. injection E as Eb El. rewrite Eb in IH. rewrite E2 in IH. cbn [fst snd] in IH. auto.
  - specialize (IH (val (M1 o)) M1 M2 (Lp _) A).
    destruct (run (k (val (M1 o))) M1) as [M1' l1] eqn:E1.
    destruct (run (k (val (M2 o))) M2) as [M2' l2] eqn:E2. cbn [fst snd] in *.
    intros E. injection E as Eb El. rewrite Eb in IH. rewrite E2 in IH. cbn [fst snd] in IH. auto.
Qed.
End Two.

Lemma init_get {N} (M : mem N) a n start o : init_pattern M a n start o =
  if (a <=? o) && (o <? a + n) then mkObj (val (M o)) [o - a + start] else M o.
Proof.
  unfold init_pattern.
  assert (Q : forall n, fold_left (fun M i => set M (a + i) (mkObj (val (M (a + i))) [i + start])) (seq 0 n) M o =
    if (a <=? o) && (o <? a + n) then mkObj (val (M o)) [o - a + start] else M o).
  { clear n. induction n as [|n IH].
    - cbn [seq fold_left]. destruct (Nat.leb_spec a o), (Nat.ltb_spec o (a + 0)); try lia; reflexivity.
    - rewrite seq_S, fold_left_app. cbn [fold_left Nat.add]. set (M' := fold_left _ _ M) in *.
      unfold set. destruct (Nat.eqb_spec o (a + n)) as [->|Hn].
      + rewrite IH. destruct (Nat.leb_spec a (a + n)), (Nat.ltb_spec (a + n) (a + n)), (Nat.ltb_spec (a + n) (a + S n)); try lia.
        cbn [andb]. do 3 f_equal. lia.
      + rewrite IH. destruct (Nat.leb_spec a o), (Nat.ltb_spec o (a + n)), (Nat.ltb_spec o (a + S n)); try lia; reflexivity. }
  apply Q.
Qed.

(* ------------------------------------------------------------------ *)
(* theorems                                                              *)

(* the inputs are the n objects from a on, input i has the number i + start.  Two runs of the same
   program that decide alike: an object is the same in both if the inputs in its pattern are *)
Theorem C54_pattern {N} (p : prog N) (M1 M2 : mem N) a n start o :
  legal p -> (forall o', ~ (a <= o' < a + n) -> M1 o' = M2 o') ->
  snd (run p (init_pattern M1 a n start)) = snd (run p (init_pattern M2 a n start)) ->
  let b1 := fst (run p (init_pattern M1 a n start)) o in
  let b2 := fst (run p (init_pattern M2 a n start)) o in
  pat b1 = pat b2 /\
  ((forall i, i < n -> In (i + start) (pat b1) -> val (M1 (a + i)) = val (M2 (a + i))) -> val b1 = val b2).
Proof.
  intros Lp Eo El b1 b2.
  set (ok := fun j => forall i, i < n -> j = i + start -> val (M1 (a + i)) = val (M2 (a + i))).
  assert (A : alike N ok (init_pattern M1 a n start) (init_pattern M2 a n start)).
  { intros o'. rewrite !init_get. destruct (Nat.leb_spec a o'), (Nat.ltb_spec o' (a + n)); cbn [andb];
      try (rewrite Eo by lia; split; reflexivity).
    cbn [pat val]. split; [reflexivity|]. intros C. replace o' with (a + (o' - a)) by lia.
    apply (C (o' - a + start)); [now left|lia|reflexivity]. }
  destruct (run_alike N ok p _ _ Lp A El o) as [B1 B2]. split; [exact B1|].
  intros H. apply B2. intros j Hj i Hi ->. now apply H.
Qed.

(* every pattern is sorted, without duplicates; get_sparse_pattern returns its length and its elements *)
Lemma exec_sorted {N} (c : call N) (M : mem N) : (forall o, inc (pat (M o))) -> forall o, inc (pat (fst (exec M c) o)).
Proof.
  intros S.
  assert (S1 : forall M o b, (forall o, inc (pat (M o))) -> inc (pat b) -> forall o', inc (pat (@set N M o b o'))).
  { intros M' o' b H1 H2 o''. unfold set. destruct (o'' =? o'); auto. }
  assert (S2 : forall x p, inc p -> inc (take M p x)).
  { intros [o|v] p Hp; cbn; [|exact Hp]. now apply add_sorted. }
  assert (S0 : inc []) by constructor.
  assert (S3 : forall x a o, inc (pat (assign M x a o))).
  { intros x a. unfold assign. apply S1; [|cbn [pat]; apply add_sorted; rewrite !get_set, !Nat.eqb_refl; cbn [pat]; [exact S0|]].
    - repeat (apply S1; [|cbn [pat]; auto]). auto.
    - destruct (a =? x); cbn [pat]; auto. }
  destruct c as [t|t v|t a|f t a|f t x y|f t a|f t a|t x y|t x y|t x y|r c a1 a2|r c a|r c a1 a2|r c a|x v|x a|f x y|x v]; cbn [exec].
  4: destruct f.
  all: repeat match goal with |- context [if ?b then _ else _] => destruct b end; cbn [fst]; auto.
  all: rewrite ?get_set, ?Nat.eqb_refl; repeat (apply S1; auto); cbn [pat]; auto using add_sorted.
Qed.
Theorem C54_sorted {N} (p : prog N) : forall (M : mem N), (forall o, inc (pat (M o))) -> forall o, inc (pat (fst (run p M) o)).
Proof.
  induction p as [|c p IH|r x y k IH|o' k IH]; intros M S; cbn [run]; [auto| | |].
  - pose proof (exec_sorted c M S) as X. destruct (exec M c) as [M' l]. cbn [fst] in X. specialize (IH M' X).
    destruct (run p M') as [M'' l']. exact IH.
  - specialize (IH (test N r (oval M x) (oval M y)) M S). destruct (run _ M) as [M'' l']. exact IH.
  - specialize (IH (val (M o')) M S). destruct (run _ M) as [M'' l']. exact IH.
Qed.
Theorem C54_get {N} (b : obj N) : inc (pat b) ->
  exists l, get_pattern b = length l :: l /\ NoDup l /\ StronglySorted lt l /\ forall j, In j l <-> In j (pat b).
Proof.
  intros S. exists (pat b). split; [unfold get_pattern; destruct (pat b); reflexivity|]. split; [|split; [exact S|tauto]].
  clear -S. induction S as [|a l S IH F]; constructor; auto. rewrite List.Forall_forall in F. intros H. specialize (F a H). lia.
Qed.

(* nothing but chains of operations *)
Lemma exec_chain {N} (c : call N) (M : mem N) o j : In j (pat (fst (exec M c) o)) ->
  exists o1, In j (pat (M o1)) /\ forall o0 ws, chain o0 ws o1 -> chain o0 (ws ++ writes c) o.
Proof.
  assert (W : forall M' r b srcs, (forall j, In j (pat b) -> exists s, In s srcs /\ In j (pat (M' s))) ->
    In j (pat (@set N M' r b o)) -> exists o1, In j (pat (M' o1)) /\ forall o0 ws, chain o0 ws o1 -> chain o0 (ws ++ [(r, srcs)]) o).
  { intros M' r b srcs Hb. unfold set. destruct (Nat.eqb_spec o r) as [->|Hn]; intros H.
    - destruct (Hb j H) as (s & Hs & Hj). exists s. split; [exact Hj|]. intros. eapply chain_via; eauto.
    - exists o. split; [exact H|]. intros. now apply chain_pass. }
  assert (T : forall p x j, In j (take M p x) -> In j p \/ exists s, In s (objs x) /\ In j (pat (M s))).
  { intros p [s|v] j'; cbn [take objs]; [rewrite add_in|]; [|tauto]. intros [H|H]; [tauto|]. right. exists s. cbn. auto. }
  assert (As : forall r a srcs, In a srcs -> In j (pat (assign M r a o)) ->
    exists o1, In j (pat (M o1)) /\ forall o0 ws, chain o0 ws o1 -> chain o0 (ws ++ [(r, srcs)]) o).
  { intros r a srcs Ha. unfold assign. rewrite !get_set, !Nat.eqb_refl. cbn [pat val]. intros H.
    apply (W M r (mkObj (val (M a)) (if a =? r then [] else pat (M a))) srcs).
    - cbn [pat]. intros j'. destruct (a =? r); [intros []|]. eauto.
    - unfold set in *. destruct (o =? r); [|exact H]. cbn [pat] in *. rewrite add_in in H.
      destruct H as [[]|H]. destruct (a =? r); exact H. }
  assert (Sv : forall r srcs, In r srcs -> In j (pat (M o)) ->
    exists o1, In j (pat (M o1)) /\ forall o0 ws, chain o0 ws o1 -> chain o0 (ws ++ [(r, srcs)]) o).
  { intros r srcs Hr H. exists o. split; [exact H|]. intros o0 ws C. destruct (Nat.eq_dec o r) as [->|Hn]; [eapply chain_via; eauto|now apply chain_pass]. }
  assert (Tw : forall a t v1 v2, In j (pat (set (set M a (mkObj v1 (pat (M a)))) t (mkObj v2 (add_to_pattern [] (pat (M a)))) o)) ->
     exists o1, In j (pat (M o1)) /\ forall o0 ws, chain o0 ws o1 -> chain o0 (ws ++ [(a, [a]); (t, [a])]) o).
  { intros a t v1 v2 H. exists (if o =? t then a else o). unfold set in H. destruct (Nat.eqb_spec o t) as [->|Hn].
    - cbn [pat] in H. rewrite add_in in H. destruct H as [[]|H]. split; [exact H|]. intros o0 ws C.
      change [(a, [a]); (t, [a])] with ([(a, [a])] ++ [(t, [a])]). rewrite app_assoc. apply chain_via with (s := a); [|now left].
      apply chain_via with (s := a); [exact C|now left].
    - destruct (Nat.eqb_spec o a) as [->|Hna]; split; try exact H; intros o0 ws C;
      change [(a, [a]); (t, [a])] with ([(a, [a])] ++ [(t, [a])]); rewrite app_assoc; apply chain_pass; auto.
      + apply chain_via with (s := a); [exact C|now left].
      + now apply chain_pass. }
  destruct c as [t|t v|t a|f t a|f t x y|f t a|f t a|t x y|t x y|t x y|r c a1 a2|r c a|r c a1 a2|r c a|x v|x a|f x y|x v]; cbn [exec writes].
  - apply W. intros ? [].
  - apply W. intros ? [].
  - apply W. cbn [pat]. intros j'. rewrite add_in. intros [[]|H]. exists a. cbn. auto.
  - destruct f; cbn [fst]; apply W; cbn [pat]; intros j'; try (intros []; fail); rewrite add_in; intros [[]|H]; exists a; cbn; auto.
  - cbn [fst]. apply W. cbn [pat]. intros j' H. apply T in H as [H|(s & Hs & H)]; [apply T in H as [[]|(s & Hs & H)]|];
      exists s; rewrite in_app_iff; auto.
  - cbn [fst]. rewrite !get_set, !Nat.eqb_refl. cbn [pat]. apply Tw.
  - cbn [fst]. rewrite !get_set, !Nat.eqb_refl. cbn [pat]. apply Tw.
  - repeat match goal with |- context [if ?b then _ else _] => destruct b end; cbn [fst]; apply W; cbn [pat]; intros j' H;
      apply T in H as [H|(s & Hs & H)]; try (exists s; rewrite in_app_iff; auto; fail); try (destruct H; fail);
      apply T in H as [[]|(s & Hs & H)]; exists s; rewrite in_app_iff; auto.
  - repeat match goal with |- context [if ?b then _ else _] => destruct b end; cbn [fst]; apply W; cbn [pat]; intros j' H;
      apply T in H as [H|(s & Hs & H)]; try (exists s; rewrite in_app_iff; auto; fail); try (destruct H; fail);
      apply T in H as [[]|(s & Hs & H)]; exists s; rewrite in_app_iff; auto.
  - cbn [fst pat]. apply W. cbn [pat]. intros j' H.
    assert (In j' (opat M x) \/ In j' (opat M y)) as H'.
    { rewrite !take_in, add_in, !take_in in H. cbn [In] in H. tauto. }
    destruct H' as [H'|H']; [destruct x as [s|v]|destruct y as [s|v]]; try (destruct H'; fail); exists s; rewrite in_app_iff; cbn [objs In opat] in *; auto.
  - destruct (pos N M c); cbn [fst]; apply As; cbn; auto.
  - destruct (pos N M c); cbn [fst]; [apply As|apply Sv]; cbn; auto.
  - destruct (nonneg N M c); cbn [fst]; apply As; cbn; auto.
  - destruct (nonneg N M c); cbn [fst]; [apply As|apply Sv]; cbn; auto.
  - apply W. intros ? [].
  - cbn [fst]. apply As. cbn; auto.
  - cbn [fst]. apply W. cbn [pat]. intros j' H. apply T in H as [H|(s & Hs & H)]; [exists x|exists s]; cbn [In]; auto.
  - cbn [fst]. apply W. cbn [pat]. intros j' H. exists x. cbn [In]. auto.
Qed.
Theorem C54_chains {N} (p : prog N) : forall (M : mem N) o j, In j (pat (fst (run p M) o)) ->
  exists o0, In j (pat (M o0)) /\ chain o0 (flat_map writes (executed p M)) o.
Proof.
  assert (Q : forall p (M : mem N) o j, In j (pat (fst (run p M) o)) ->
    exists o1, In j (pat (M o1)) /\ forall o0 ws, chain o0 ws o1 -> chain o0 (ws ++ flat_map writes (executed p M)) o).
  { clear p. induction p as [|c p IH|r x y k IH|o' k IH]; intros M o j; cbn [run executed].
    - intros H. exists o. split; [exact H|]. intros. cbn. now rewrite app_nil_r.
    - pose proof (exec_chain c M) as X. destruct (exec M c) as [M' l]. cbn [fst] in *. specialize (IH M' o j).
      destruct (run p M') as [M'' l']. cbn [fst] in *. intros H. destruct (IH H) as (o1 & H1 & C1). destruct (X o1 j H1) as (o2 & H2 & C2).
      exists o2. split; [exact H2|]. intros o0 ws C. cbn [flat_map]. rewrite app_assoc. apply C1, C2, C.
    - specialize (IH (test N r (oval M x) (oval M y)) M o j). destruct (run _ M) as [M'' l']. exact IH.
    - specialize (IH (val (M o')) M o j). destruct (run _ M) as [M'' l']. exact IH. }
  intros M o j H. destruct (Q p M o j H) as (o1 & H1 & C). exists o1. split; [exact H1|]. apply (C o1 []). constructor.
Qed.

(* over the reals: a nonzero partial derivative is in the pattern *)
Section Reals.
Variables (g1 : unary -> R -> R) (g2 : binary -> R -> R -> R) (gt : rel -> R -> R -> bool) (c0 c1 c2 : R).
Let N := mkNum R g1 g2 gt c0 c1 c2.
Definition moved (M : mem N) (o : nat) (s : R) : mem N := set M o (@mkObj N s (pat (M o))).
Theorem C54_jacobian (p : prog N) (M : mem N) a n start o k (d : R) :
  legal p -> k < n ->
  let at_ s := run p (init_pattern (moved M (a + k) s) a n start) in
  locally (val (M (a + k)) : R) (fun s => snd (at_ s) = snd (at_ (val (M (a + k))))) ->
  is_derive (fun s => val (fst (at_ s) o) : R) (val (M (a + k)) : R) d -> d <> 0%R ->
  In (k + start) (pat (fst (run p (init_pattern M a n start)) o)).
Proof.
  intros Lp Hk at_ Hl Hd Hn.
  assert (E0 : moved M (a + k) (val (M (a + k))) = M).
  { apply FunctionalExtensionality.functional_extensionality. intros o'. unfold moved, set.
    destruct (Nat.eqb_spec o' (a + k)) as [->|_]; [|reflexivity]. now destruct (M (a + k)). }
  assert (Q : forall s, snd (at_ s) = snd (at_ (val (M (a + k)))) ->
    pat (fst (at_ s) o) = pat (fst (at_ (val (M (a + k)))) o) /\
    (~ In (k + start) (pat (fst (at_ (val (M (a + k)))) o)) -> val (fst (at_ s) o) = val (fst (at_ (val (M (a + k)))) o))).
  { intros s E. destruct (C54_pattern p (moved M (a + k) s) (moved M (a + k) (val (M (a + k)))) a n start o Lp) as [B1 B2].
    - intros o' Ho. unfold moved, set. destruct (Nat.eqb_spec o' (a + k)); [lia|reflexivity].
    - exact E.
    - split; [exact B1|]. intros Ni. apply B2. intros i Hi Hin. fold (at_ s) in Hin.
      unfold moved, set. destruct (Nat.eqb_spec (a + i) (a + k)); [|reflexivity].
      exfalso. apply Ni. change (pat (fst (at_ s) o) = pat (fst (at_ (val (M (a + k)))) o)) in B1. rewrite <- B1. replace k with i by lia. exact Hin. }
  destruct (in_dec Nat.eq_dec (k + start) (pat (fst (at_ (val (M (a + k)))) o))) as [Hin|Hin].
  - unfold at_ in Hin. now rewrite E0 in Hin.
  - exfalso. apply Hn. assert (Hz : is_derive (fun s : R => val (fst (at_ (val (M (a + k)))) o) : R) (val (M (a + k)) : R) 0%R) by exact (@is_derive_const R_AbsRing R_NormedModule (val (fst (at_ (val (M (a + k)))) o) : R) (val (M (a + k)) : R)).
    assert (Hd' : is_derive (fun s : R => val (fst (at_ (val (M (a + k)))) o) : R) (val (M (a + k)) : R) d).
    { eapply is_derive_ext_loc; [|exact Hd]. eapply filter_imp; [|exact Hl]. intros s E. cbv beta. now apply (proj2 (Q s E)). }
    apply is_derive_unique in Hz. apply is_derive_unique in Hd'. etransitivity; [symmetry; exact Hd'|exact Hz].
Qed.
End Reals.
