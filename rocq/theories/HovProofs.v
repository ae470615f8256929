(* Every direction of hov_forward is a run of hos_forward. *)
Require Import List ZArith Bool Arith Lia.
Require Import Verif.AdModel Verif.HosModel Verif.HovModel.
Import ListNotations.
Set Implicit Arguments.

Section Loops.
Variables A B : Type.
Lemma up_inv2 n (P : nat -> A -> B -> Prop) f g a b : P 0 a b ->
  (forall i a b, i < n -> P i a b -> P (S i) (f i a) (g i b)) -> P n (up n f a) (up n g b).
Proof. induction n; cbn; intros H F; auto. apply F; [lia|]. apply IHn; auto. Qed.
Lemma dn_inv2 n (P : A -> B -> Prop) f g : (forall i a b, i < n -> P a b -> P (f i a) (g i b)) ->
  forall a b, P a b -> P (dn n f a) (dn n g b).
Proof. induction n; cbn; intros F a b H; auto. Qed.
Lemma up_inv1 n (P : A -> Prop) f a : P a -> (forall i a, i < n -> P a -> P (f i a)) -> P (up n f a).
Proof. induction n; cbn; intros H F; auto. apply F; [lia|]. apply IHn; auto. Qed.
Lemma dn_inv1 n (P : A -> Prop) f : (forall i a, i < n -> P a -> P (f i a)) -> forall a, P a -> P (dn n f a).
Proof. induction n; cbn; intros F a H; auto. Qed.
Lemma up_eq n (f g : nat -> A -> A) s t : s = t -> (forall j a, j < n -> f j a = g j a) -> up n f s = up n g t.
Proof. intros <- F. induction n; cbn; auto. rewrite IHn, F by auto. reflexivity. Qed.
End Loops.

Section Proofs.
Variable K : Arith.
Notation val := (V K).
Notation vmem := (mem K).
Notation rows := (rows K).
Notation putz := (@HosModel.putz K).
Variable k : nat.
Hypothesis Hk : 0 < k.

(* direction l of the blocks C is the rows D *)
Definition same (l : nat) (C D : rows) : Prop := forall loc i, i < k -> C loc (l * k + i) = D loc i.
(* only direction l has been written *)
Definition keeps (l : nat) (C C' : rows) : Prop :=
  forall loc l' i, l' <> l -> i < k -> C' loc (l' * k + i) = C loc (l' * k + i).

Lemma index_inj l i l' i' : i < k -> i' < k -> l * k + i = l' * k + i' -> l = l' /\ i = i'.
Proof.
  intros H H' E. assert (l = l').
  { destruct (Nat.lt_trichotomy l l') as [L|[L|L]]; auto.
    - assert (S l * k <= l' * k) by (apply Nat.mul_le_mono_r; lia). cbn in *. lia.
    - assert (S l' * k <= l * k) by (apply Nat.mul_le_mono_r; lia). cbn in *. lia. }
  subst. lia.
Qed.
Lemma keeps_refl l C : keeps l C C.
Proof. intros loc l' i _ _. reflexivity. Qed.
Lemma keeps_trans l C C' C'' : keeps l C C' -> keeps l C' C'' -> keeps l C C''.
Proof. intros H H' loc l' i N I. rewrite H' by auto. now apply H. Qed.
Lemma keeps_put l C res i v : i < k -> keeps l C (put C res (l * k + i) v).
Proof.
  intros I loc l' j N J. unfold put. destruct (Nat.eqb_spec (l' * k + j) (l * k + i)) as [E|E].
  - apply index_inj in E; auto. lia.
  - now rewrite andb_false_r.
Qed.
Lemma keeps_put' l C C' res i v : i < k -> keeps l C C' -> keeps l C (put C' res (l * k + i) v).
Proof. intros I H. eapply keeps_trans; [exact H|]. now apply keeps_put. Qed.
Lemma same_put l C D res i v w : i < k -> same l C D -> v = w -> same l (put C res (l * k + i) v) (put D res i w).
Proof.
  intros I H <- loc j J. unfold put. destruct (Nat.eqb_spec loc res) as [->|N]; cbn [andb]; [|now apply H].
  destruct (Nat.eqb_spec j i) as [->|N].
  - now rewrite Nat.eqb_refl.
  - destruct (Nat.eqb_spec (l * k + j) (l * k + i)); [lia|]. now apply H.
Qed.
Lemma same_keeps l l' C C' D : l <> l' -> keeps l' C C' -> same l C D -> same l C' D.
Proof. intros N H E loc i I. rewrite H by auto. now apply E. Qed.

(* ---- the loops over the directions ---- *)
Section Dirs.
Variables (A : Type) (pr : A -> rows) (f : nat -> A -> A) (l : nat) (h : rows -> rows).
Hypothesis F1 : forall a D, same l (pr a) D -> same l (pr (f l a)) (h D).
Hypothesis F2 : forall l a, keeps l (pr a) (pr (f l a)).
Lemma dirs_up_other p a D : p <= l -> same l (pr a) D -> same l (pr (up p f a)) D.
Proof.
  induction p; cbn; intros H E; auto. apply same_keeps with (l' := p) (C := pr (up p f a)); auto; try lia.
  apply IHp; auto. lia.
Qed.
Lemma dirs_up p a D : l < p -> same l (pr a) D -> same l (pr (up p f a)) (h D).
Proof.
  induction p; cbn; intros H E; [lia|]. destruct (Nat.eq_dec l p) as [<-|N].
  - apply F1. now apply dirs_up_other.
  - apply same_keeps with (l' := p) (C := pr (up p f a)); auto. apply IHp; auto. lia.
Qed.
Lemma dirs_dn_other p : forall a D, p <= l -> same l (pr a) D -> same l (pr (dn p f a)) D.
Proof.
  induction p; cbn; intros a D H E; auto. apply IHp; [lia|].
  apply same_keeps with (l' := p) (C := pr a); auto; try lia.
Qed.
Lemma dirs_dn p : forall a D, l < p -> same l (pr a) D -> same l (pr (dn p f a)) (h D).
Proof.
  induction p; cbn; intros a D H E; [lia|]. destruct (Nat.eq_dec l p) as [<-|N].
  - apply dirs_dn_other; auto.
  - apply IHp; [lia|]. apply same_keeps with (l' := p) (C := pr a); auto.
Qed.
End Dirs.

(* FOR_0_LE_l_LT_pk *)
Lemma up_put_at n res (g : nat -> rows -> val) C :
  (forall q C C', (forall loc, C loc q = C' loc q) -> g q C = g q C') ->
  forall loc q, up n (fun q C => put C res q (g q C)) C loc q =
    if Nat.eqb loc res && Nat.ltb q n then g q C else C loc q.
Proof.
  intros G. induction n; intros loc q; cbn [up].
  - cbn. now rewrite andb_false_r.
  - unfold put at 1. destruct (Nat.eqb_spec loc res) as [->|N]; cbn [andb].
    + destruct (Nat.eqb_spec q n) as [->|Nq].
      * rewrite (proj2 (Nat.ltb_lt n (S n))) by lia. apply G. intros loc. rewrite IHn.
        rewrite (proj2 (Nat.ltb_ge n n)) by lia. now rewrite andb_false_r.
      * rewrite IHn, Nat.eqb_refl. cbn [andb].
        destruct (Nat.ltb_spec q n), (Nat.ltb_spec q (S n)); auto; lia.
    + rewrite IHn. destruct (Nat.eqb_spec loc res); [contradiction|reflexivity].
Qed.
Lemma wrow_same p l res (g g' : nat -> rows -> val) C D : l < p -> same l C D ->
  (forall q C C', (forall loc, C loc q = C' loc q) -> g q C = g q C') ->
  (forall q C C', (forall loc, C loc q = C' loc q) -> g' q C = g' q C') ->
  (forall i C D, i < k -> same l C D -> g (l * k + i) C = g' i D) ->
  same l (wrow p k res g C) (row k res g' D).
Proof.
  intros L E G G' X loc i I. unfold wrow, row. rewrite up_put_at, up_put_at by auto.
  assert (Q : l * k + i < p * k).
  { assert (S l * k <= p * k) by (apply Nat.mul_le_mono_r; lia). cbn in *. lia. }
  rewrite (proj2 (Nat.ltb_lt _ _) Q), (proj2 (Nat.ltb_lt _ _) I).
  destruct (loc =? res); cbn [andb]; auto.
Qed.

(* ---- products ---- *)
Lemma wprow_same op p l res a1 a2 first first' C D : l < p -> same l C D ->
  (forall i C D, i < k -> same l C D -> first (l * k + i) C = first' i D) ->
  same l (wprow op p k res a1 a2 first C) (prow op k res a1 a2 first' D).
Proof.
  intros L E X. unfold wprow, prow.
  apply (@dirs_dn rows (fun C => C) (fun l => dn k _) l (dn k _)) with (D := D); auto.
  - clear C D E. intros C D E. apply dn_inv2; auto. clear C D E. intros i C D I E.
    apply same_put; auto. apply up_eq; [now apply X|]. intros j acc J.
    rewrite (E a1 j), (E a2 (i - 1 - j)) by lia. reflexivity.
  - intros l' C'. apply dn_inv1 with (P := keeps l' C'); [|apply keeps_refl].
    intros i C1 I H. now apply keeps_put'.
Qed.

(* ---- loops with dp_z ---- *)
Definition zsame (l i : nat) (a b : rows * (nat -> val)) : Prop :=
  same l (fst a) (fst b) /\ forall j, j < i -> snd a j = snd b j.
Lemma zdirs_same p l body body' C D : l < p -> same l C D ->
  (forall i a b, i < k -> zsame l i a b -> zsame l (S i) (body (l * k) i a) (body' i b)) ->
  (forall l i a, i < k -> keeps l (fst a) (fst (body (l * k) i a))) ->
  same l (zdirs p k body C) (zloop k body' D).
Proof.
  intros L E X Y. unfold zdirs, zloop.
  refine (@dirs_up _ fst (fun l s => up k (body (l * k)) s) l
            (fun D => fst (up k body' (D, fun _ => zero K))) _ _ p (C, fun _ => zero K) D L E).
  - clear C D E. intros [C z] D E. cbn [fst] in *.
    refine (proj1 (@up_inv2 _ _ k (zsame l) (body (l * k)) body' (C, z) (D, fun _ => zero K) _ _)).
    + split; auto. intros; lia.
    + intros. now apply X.
  - intros l' a. apply up_inv1 with (P := fun b => keeps l' (fst a) (fst b)); [apply keeps_refl|].
    intros i b I H. eapply keeps_trans; [exact H|]. now apply Y.
Qed.

Lemma putz_ext i (z z' : nat -> val) v w : v = w -> (forall j, j < i -> z j = z' j) ->
  forall j, j < S i -> putz z i v j = putz z' i w j.
Proof. intros <- H j J. unfold putz. destruct (Nat.eqb_spec j i); auto. apply H. lia. Qed.

Ltac zgo := intros i [C1 z] [D1 z'] I [E Z]; cbn [fst snd] in *;
  lazymatch goal with |- zsame _ _ ?a ?b =>
    cbv beta iota zeta delta [wdiv wexp whelp wlogb wpow]; split; cbn [fst snd] end.
Ltac zk := intros l' i [C1 z] I; cbn; now apply keeps_put.

Lemma wdiv_same p l res den divs first first' C D : l < p -> same l C D ->
  (forall i C D, i < k -> same l C D -> first (l * k + i) C = first' i D) ->
  same l (zdirs p k (wdiv res den divs first) C) (divrow k res den divs first' D).
Proof.
  intros L E0 X. unfold divrow. apply zdirs_same; auto; [|zk].
  zgo.
  - apply same_put; auto. apply up_eq; [now apply X|]. intros j acc J.
    rewrite (E res j) by lia. do 2 f_equal. apply putz_ext with (i := i); auto; [|lia].
    now rewrite (E den i).
  - apply putz_ext; auto. now rewrite (E den i).
Qed.
Lemma wexp_same p l arg res v C D : l < p -> same l C D ->
  same l (zdirs p k (wexp arg res v) C) (exprow k arg res v D).
Proof.
  intros L E0. unfold exprow. apply zdirs_same; auto; [|zk]. zgo.
  - apply same_put; auto. f_equal. apply up_eq; [now rewrite (E arg i)|]. intros j acc J.
    rewrite (E res j) by lia. do 2 f_equal. apply putz_ext with (i := i); auto; [|lia].
    now rewrite (E arg i).
  - apply putz_ext; auto. now rewrite (E arg i).
Qed.
Lemma whelp_same p l a1 a2 res v C D : l < p -> same l C D ->
  same l (zdirs p k (whelp a1 a2 res v) C) (helprow k a1 a2 res v D).
Proof.
  intros L E0. unfold helprow. apply zdirs_same; auto; [|zk]. zgo.
  - apply same_put; auto. f_equal. apply up_eq; [now rewrite (E a1 i)|]. intros j acc J.
    rewrite (E a2 j) by lia. do 2 f_equal. apply putz_ext with (i := i); auto; [|lia].
    now rewrite (E a1 i).
  - apply putz_ext; auto. now rewrite (E a1 i).
Qed.
Lemma wpow_same p l arg res v c r0 C D : l < p -> same l C D ->
  same l (zdirs p k (wpow arg res v c r0) C) (powrow k arg res v c r0 D).
Proof.
  intros L E0. unfold powrow. apply zdirs_same; auto; [|zk]. zgo.
  - apply same_put; auto. f_equal. f_equal. apply up_eq; [now rewrite (E arg i)|]. intros j [acc y] J.
    rewrite (E res j) by lia. do 4 f_equal. apply putz_ext with (i := i); auto; [|lia].
    now rewrite (E arg i).
  - apply putz_ext; auto. now rewrite (E arg i).
Qed.
Lemma wlogb_step l arg res divs : forall i a b, i < k -> zsame l i a b ->
  zsame l (S i) (wlogb arg res divs (l * k) i a)
    ((fun i (s : rows * (nat -> val)) =>
    let (C, z) := s in
    let y := mul K (C arg i) divs in
    let z := putz z i y in
    let a := up i (fun j acc => sub K acc (mul K (mul K (z (i - 1 - j)) (C res j)) (@HosModel.num K j)))
                (mul K y (@HosModel.num K i)) in
    (put C res i (dvd K a (@HosModel.num K i)), z)) i b).
Proof.
  zgo.
  - apply same_put; auto. f_equal. apply up_eq; [now rewrite (E arg i)|]. intros j acc J.
    rewrite (E res j) by lia. do 3 f_equal. apply putz_ext with (i := i); auto; [|lia].
    now rewrite (E arg i).
  - apply putz_ext; auto. now rewrite (E arg i).
Qed.
Lemma wtrig_same p l a1 a2 res f2 fr o2 o_r C D : l < p -> same l C D ->
  same l (zdirs p k (wtrig a1 a2 res f2 fr o2 o_r) C) (trigrow k a1 a2 res f2 fr o2 o_r D).
Proof.
  intros L E0. unfold trigrow. apply zdirs_same; auto.
  - intros i [C1 z] [D1 z'] I [E Z]. cbn [fst snd] in *. cbv beta iota zeta delta [wtrig].
    set (z1 := putz z i _). set (z1' := putz z' i _).
    assert (Ez : forall j, j < S i -> z1 j = z1' j) by (apply putz_ext; auto; now rewrite (E a1 i)).
    set (C2 := put C1 a2 _ _). set (D2 := put D1 a2 _ _).
    assert (E2 : same l C2 D2) by (apply same_put; auto; now rewrite (E a1 i)).
    set (C3 := put C2 res _ _). set (D3 := put D2 res _ _).
    assert (E3 : same l C3 D3) by (apply same_put; auto; now rewrite (E2 a1 i)).
    set (C4 := put C3 res _ _). set (D4 := put D3 res _ _).
    assert (E4 : same l C4 D4) by (apply same_put; auto; now rewrite (E3 res i)).
    set (C5 := put C4 a2 _ _). set (D5 := put D4 a2 _ _).
    assert (E5 : same l C5 D5) by (apply same_put; auto; now rewrite (E4 a2 i)).
    match goal with |- zsame _ _ (put (put ?c _ _ _) _ _ _, _) (put (put ?d _ _ _) _ _ _, _) =>
      set (C6 := c); set (D6 := d) end.
    assert (E6 : same l C6 D6).
    { unfold C6, D6. apply up_inv2 with (P := fun _ => same l); auto. intros j c d J Ec.
      set (c1 := put c res _ _). set (d1 := put d res _ _).
      assert (Ec1 : same l c1 d1).
      { apply same_put; auto. rewrite (Ec res i), (Ec a2 j), (Ez (i - 1 - j)) by lia. reflexivity. }
      apply same_put; auto. rewrite (Ec1 a2 i), (Ec1 res j), (Ez (i - 1 - j)) by lia. reflexivity. }
    set (C7 := put C6 a2 _ _). set (D7 := put D6 a2 _ _).
    assert (E7 : same l C7 D7) by (apply same_put; auto; now rewrite (E6 a2 i)).
    split; cbn [fst snd]; auto. apply same_put; auto. now rewrite (E7 res i).
  - intros l' i [C1 z] I. cbn [fst snd]. cbv beta iota zeta delta [wtrig]. cbn [fst snd].
    apply keeps_put'; auto. apply keeps_put'; auto.
    match goal with |- keeps _ ?a (up _ _ _) => apply up_inv1 with (P := keeps l' a) end.
    + do 4 (apply keeps_put'; auto). apply keeps_refl.
    + intros j c J H. cbv zeta. apply keeps_put'; auto. apply keeps_put'; auto.
Qed.

(* ---- the rest ---- *)
Lemma wpick_same l arg pl mi C D : same l C D -> wpick k (l * k) arg pl mi C = pick k arg pl mi D.
Proof.
  intros E. unfold wpick, pick. assert (G : forall n i, i + n <= k ->
    (fix go n i := match n with
     | 0 => zero K
     | S n' => if gt0 K (C arg (l * k + i)) then pl else if lt0 K (C arg (l * k + i)) then mi
               else go n' (S i)
     end) n i =
    (fix go n i := match n with
     | 0 => zero K
     | S n' => if gt0 K (D arg i) then pl else if lt0 K (D arg i) then mi else go n' (S i)
     end) n i).
  { induction n; intros i Hi; auto. rewrite IHn by lia. rewrite (E arg i) by lia. reflexivity. }
  apply G. lia.
Qed.
Lemma wfirst_same p l res a1 pl mi C D : l < p -> same l C D ->
  same l (up p (fun l C => put C res (l * k) (wpick k (l * k) a1 pl mi C)) C)
         (put D res 0 (pick k a1 pl mi D)).
Proof.
  intros L E.
  refine (@dirs_up rows (fun C => C) (fun l C => put C res (l * k) (wpick k (l * k) a1 pl mi C)) l
           (fun D => put D res 0 (pick k a1 pl mi D)) _ _ p C D L E).
  - clear C D E. intros C D E. replace (l * k) with (l * k + 0) at 1 by lia. apply same_put; auto.
    now apply wpick_same.
  - intros l' C'. replace (l' * k) with (l' * k + 0) at 1 by lia. now apply keeps_put.
Qed.
Lemma wall_same p l res a1 pl mi C D : l < p -> same l C D ->
  same l (up p (fun l C => up (k - 1) (fun i C => put C res (l * k + S i) (vnan K))
               (put C res (l * k) (wpick k (l * k) a1 pl mi C))) C)
         (up (k - 1) (fun i C => put C res (S i) (vnan K)) (put D res 0 (pick k a1 pl mi D))).
Proof.
  intros L E.
  refine (@dirs_up rows (fun C => C) (fun l C => up (k - 1) (fun i C => put C res (l * k + S i) (vnan K))
               (put C res (l * k) (wpick k (l * k) a1 pl mi C))) l
           (fun D => up (k - 1) (fun i C => put C res (S i) (vnan K)) (put D res 0 (pick k a1 pl mi D)))
           _ _ p C D L E).
  - clear C D E. intros C D E. apply up_inv2 with (P := fun _ => same l).
    + replace (l * k) with (l * k + 0) at 1 by lia. apply same_put; auto. now apply wpick_same.
    + intros i c d I Ec. apply same_put; auto. lia.
  - intros l' C'. apply up_inv1 with (P := keeps l' C').
    + replace (l' * k) with (l' * k + 0) at 1 by lia. now apply keeps_put.
    + intros i c I H. apply keeps_put'; auto. lia.
Qed.
Lemma wspecial_same p l f v a1 res C D : l < p -> same l C D ->
  match wspecial p k f v a1 res C, hspecial k f v a1 res D with
  | Some C', Some D' => same l C' D'
  | None, None => True
  | _, _ => False
  end.
Proof.
  intros L E. destruct f; cbn [wspecial hspecial]; auto;
    repeat match goal with |- context [if ?e then _ else _] => destruct e end; auto;
    first [now apply wfirst_same | now apply wall_same].
Qed.

Lemma wany_same l arg C D : same l C D -> wany_neg k (l * k) arg C = any_neg k arg D.
Proof.
  intros E. unfold wany_neg, any_neg. assert (G : forall n i, i + n <= k ->
    existsb (fun i => lt0 K (C arg (l * k + i))) (seq i n) = existsb (fun i => lt0 K (D arg i)) (seq i n)).
  { induction n; intros i Hi; auto. cbn. rewrite IHn by lia. now rewrite (E arg i) by lia. }
  apply G. lia.
Qed.
Lemma wlog_keeps arg res divs l a : keeps l (fst a) (fst (up k (wlogb arg res divs (l * k)) a)).
Proof.
  apply up_inv1 with (P := fun b => keeps l (fst a) (fst b)); [apply keeps_refl|].
  intros i [c z] I H. cbn. apply keeps_put'; auto.
Qed.
Lemma wlog_dir l arg res divs a D : same l (fst a) D ->
  same l (fst (up k (wlogb arg res divs (l * k)) a)) (logrow k arg res divs D).
Proof.
  intros E. unfold logrow, zloop.
  refine (proj1 (@up_inv2 _ _ k (zsame l) (wlogb arg res divs (l * k)) _ a (D, fun _ => zero K) _ _)).
  - split; auto. intros; lia.
  - apply wlogb_step.
Qed.
Lemma wlog_same p l arg res v C D : l < p -> same l C D -> eqb K v (zero K) = false ->
  same l (wlog p k arg res v C) (logrow k arg res (dvd K (one K) v) D).
Proof.
  intros L E V. unfold wlog. rewrite V. cbn [andb].
  set (f := fun (l : nat) (s : val * (rows * (nat -> val))) =>
              let (divs, s0) := s in (divs, up k (wlogb arg res divs (l * k)) s0)).
  assert (G : forall p a, snd (up p f (dvd K (one K) v, a)) =
                          up p (fun l s => up k (wlogb arg res (dvd K (one K) v) (l * k)) s) a /\
                          fst (up p f (dvd K (one K) v, a)) = dvd K (one K) v).
  { induction p0; intros a; cbn [up]; auto. destruct (IHp0 a) as [X Y].
    destruct (up p0 f (dvd K (one K) v, a)) as [d s]. cbn [fst snd] in *. subst. split; reflexivity. }
  destruct (G p (C, fun _ => zero K)) as [-> _].
  refine (@dirs_up _ fst _ l (logrow k arg res (dvd K (one K) v)) _ _ p (C, fun _ => zero K) D L E).
  - intros a D' E'. now apply wlog_dir.
  - intros l' a. apply wlog_keeps.
Qed.

Lemma wsqrt_same p l arg res v vr C D : l < p -> same l C D ->
  same l (wsqrt p k arg res v vr C)
    (sqrtrow k arg res (if eqb K v (zero K) then pick k arg (vinf K) (vnan K) D else dvd K (half K) vr) D).
Proof.
  intros L E. unfold wsqrt.
  refine (@dirs_up rows (fun C => C) _ l (fun D => sqrtrow k arg res
    (if eqb K v (zero K) then pick k arg (vinf K) (vnan K) D else dvd K (half K) vr) D) _ _ p C D L E).
  - clear C D E. intros C D E. rewrite (wpick_same arg (vinf K) (vnan K) E).
    set (r0 := if eqb K v (zero K) then _ else _). unfold sqrtrow.
    apply up_inv2 with (P := fun _ => same l); auto. intros i c d I Ec. apply same_put; auto.
    pose proof (Nat.div2_odd i) as Od.
    rewrite (Ec arg i), (Ec res (Nat.div2 i)) by lia. do 2 f_equal.
    match goal with |- (if _ then add K (mul K ?a _) _ else _) = (if _ then add K (mul K ?b _) _ else _) =>
      assert (a = b) as -> end; [|reflexivity].
    apply up_eq; auto. intros j acc J. rewrite (Ec res j), (Ec res (i - 1 - j)) by lia. reflexivity.
  - intros l' C'. cbv zeta. apply up_inv1 with (P := keeps l' C'); [apply keeps_refl|].
    intros i c I H. apply keeps_put'; auto.
Qed.
Lemma wminarg_same l a1 a2 T C D : same l C D -> wminarg k (l * k) a1 a2 T C = minarg k a1 a2 T D.
Proof.
  intros E. unfold wminarg, minarg. destruct (ltb K (T a2) (T a1)); auto. destruct (ltb K (T a1) (T a2)); auto.
  assert (G : forall n i, i + n <= k ->
    (fix go n i := match n with
          | 0 => a1
          | S n' => if ltb K (C a2 (l * k + i)) (C a1 (l * k + i)) then a2
                    else if ltb K (C a1 (l * k + i)) (C a2 (l * k + i)) then a1 else go n' (S i)
          end) n i =
    (fix go n i := match n with
          | 0 => a1
          | S n' => if ltb K (D a2 i) (D a1 i) then a2
                    else if ltb K (D a1 i) (D a2 i) then a1 else go n' (S i)
          end) n i).
  { induction n; intros i Hi; auto. rewrite IHn by lia. rewrite (E a1 i), (E a2 i) by lia. reflexivity. }
  apply G. lia.
Qed.
Lemma wmin_same p l a1 a2 res T C D : l < p -> same l C D ->
  same l (wmin p k a1 a2 res T C) (row k res (fun i C => C (minarg k a1 a2 T D) i) D).
Proof.
  intros L E. unfold wmin.
  refine (@dirs_up rows (fun C => C) _ l (fun D => row k res (fun i C => C (minarg k a1 a2 T D) i) D) _ _ p C D L E).
  - clear C D E. intros C D E. rewrite (wminarg_same a1 a2 T E).
    generalize (minarg k a1 a2 T D). intros a. unfold row.
    apply up_inv2 with (P := fun _ => same l); auto. intros i c d I Ec. apply same_put; auto.
  - intros l' C'. cbv zeta. apply up_inv1 with (P := keeps l' C'); [apply keeps_refl|].
    intros i c I H. apply keeps_put'; auto.
Qed.
Lemma wabs_same p l arg res v C D : l < p -> same l C D ->
  same l (wabs p k arg res v C) (absrow k arg res v D).
Proof.
  intros L E. unfold wabs.
  refine (@dirs_up rows (fun C => C) _ l (absrow k arg res v) _ _ p C D L E).
  - clear C D E. intros C D E. unfold absrow. set (x0 := if eqb K v (zero K) then _ else _).
    refine (proj1 (@up_inv2 _ _ k (fun _ (a b : rows * val) => same l (fst a) (fst b) /\ snd a = snd b) _ _
                     (C, x0) (D, x0) _ _)); [now split|].
    intros i [c x] [d y] I [Ec Ex]. cbn [fst snd] in *. subst y. cbv beta iota zeta.
    rewrite (Ec arg i) by auto. split; cbn [fst snd]; auto. apply same_put; auto.
  - intros l' C'. cbv zeta.
    apply up_inv1 with (P := fun b : rows * val => keeps l' C' (fst b)); [apply keeps_refl|].
    intros i [c x] I H. cbn. apply keeps_put'; auto.
Qed.
Lemma wind_same p l res xc C D : l < p -> same l C D ->
  same l (up p (fun l => up k (fun i C => put C res (l * k + i) (xc l i))) C)
         (row k res (fun i _ => xc l i) D).
Proof.
  intros L E.
  refine (@dirs_up rows (fun C => C) _ l (row k res (fun i _ => xc l i)) _ _ p C D L E).
  - clear C D E. intros C D E. unfold row.
    apply up_inv2 with (P := fun _ => same l); auto. intros i c d I Ec. apply same_put; auto.
  - intros l' C'. apply up_inv1 with (P := keeps l' C'); [apply keeps_refl|].
    intros i c I H. apply keeps_put'; auto.
Qed.

(* pow_op at zero when the write pointer moves once for each coefficient *)
Definition moves (c : val) (i : nat) : bool :=
  let d := sub K c (ofnat K i) in
  Nat.eqb 1 (Nat.b2n (ltb K (one K) d) + Nat.b2n (ltb K d (one K) && gt0 K d) + Nat.b2n (lt0 K d)).
Definition fracval (c : val) (i : nat) : val :=
  let d := sub K c (ofnat K i) in
  if ltb K (one K) d then zero K else if ltb K d (one K) && gt0 K d then vinf K else vnan K.
Definition fracstep (res : nat) (c : val) (i : nat) (s : rows * nat) : rows * nat :=
    let (C, q) := s in
    let d := sub K c (ofnat K i) in
    let (C, q) := if ltb K (one K) d then (put C res q (zero K), S q) else (C, q) in
    let (C, q) := if ltb K d (one K) && gt0 K d then (put C res q (vinf K), S q) else (C, q) in
    if lt0 K d then (put C res q (vnan K), S q) else (C, q).
Lemma fracstep_moves res c i C q : moves c i = true ->
  fracstep res c i (C, q) = (put C res q (fracval c i), S q).
Proof.
  unfold moves, fracstep, fracval. cbv zeta.
  destruct (ltb K (one K) (sub K c (ofnat K i))), (ltb K (sub K c (ofnat K i)) (one K) && gt0 K (sub K c (ofnat K i))),
    (lt0 K (sub K c (ofnat K i))); cbn; intros H; try discriminate; reflexivity.
Qed.
Lemma frac_dir res c : (forall i, i < k -> moves c i = true) -> forall n C q, n <= k ->
  up n (fracstep res c) (C, q) = (up n (fun i C => put C res (q + i) (fracval c i)) C, q + n).
Proof.
  intros M. induction n; intros C q Hn; cbn [up].
  - now rewrite Nat.add_0_r.
  - rewrite IHn by lia. rewrite fracstep_moves by (apply M; lia). now rewrite <- plus_n_Sm.
Qed.
Lemma wpowfrac_eq p res c C : (forall i, i < k -> moves c i = true) ->
  wpowfrac p k res c C = up p (fun l => up k (fun i C => put C res (l * k + i) (fracval c i))) C.
Proof.
  intros M. unfold wpowfrac. change (fst (up p (fun _ => up k (fracstep res c)) (C, 0)) = 
    up p (fun l => up k (fun i C => put C res (l * k + i) (fracval c i))) C).
  assert (G : up p (fun _ => up k (fracstep res c)) (C, 0) =
    (up p (fun l => up k (fun i C => put C res (l * k + i) (fracval c i))) C, p * k)).
  { induction p; cbn [up]; auto. rewrite IHp, frac_dir by auto. f_equal. cbn. lia. }
  now rewrite G.
Qed.
Lemma powfrac_eq res c D : (forall i, i < k -> moves c i = true) ->
  powfrac k res c D = row k res (fun i _ => fracval c i) D.
Proof.
  intros M. unfold powfrac. change (fst (up k (fracstep res c) (D, 0)) = row k res (fun i _ => fracval c i) D).
  rewrite frac_dir by auto. reflexivity.
Qed.

Lemma wcopy_same p l n arg res : l < p -> forall q C D, same l C D ->
  same l (wcopy p k n arg res q C) (hcopy k n arg res q D).
Proof.
  intros L. induction n; intros q C D E; cbn [wcopy hcopy]; auto. apply IHn. apply wrow_same; auto.
Qed.
Lemma wstock_same p l n : l < p -> forall res C D, same l C D ->
  same l (wstock p k n res C) (hstock k n res D).
Proof.
  intros L. induction n; intros res C D E; cbn [wstock hstock]; auto. apply IHn. apply wrow_same; auto.
Qed.
Lemma lin_same l v1 v2 a1 a2 i C D : i < k -> same l C D ->
  lin v1 v2 a1 a2 (l * k + i) C = lin v1 v2 a1 a2 i D.
Proof. intros I E. unfold lin. now rewrite (E a1 i), (E a2 i). Qed.
Lemma wdot_same p l n a1 a2 res : l < p -> forall q T C D, same l C D ->
  same l (wdot p k n a1 a2 res q T C) (hdot k n a1 a2 res q T D).
Proof.
  intros L. induction n; intros q T C D E; cbn [wdot hdot]; auto. apply IHn. apply wprow_same; auto.
  intros i c d I Ec. now rewrite (Ec res i), (lin_same _ _ _ _ I Ec).
Qed.
Lemma waxpy_same p l n arg a1 a2 res : l < p -> forall q T C D, same l C D ->
  same l (waxpy p k n arg a1 a2 res q T C) (haxpy k n arg a1 a2 res q T D).
Proof.
  intros L. induction n; intros q T C D E; cbn [waxpy haxpy]; auto. apply IHn. apply wprow_same; auto.
  intros i c d I Ec. now rewrite (Ec (a2 + q) i), (lin_same _ _ _ _ I Ec).
Qed.

(* what must not happen: a logarithm at 0; a power at 0 whose exponent is positive and
   not 1, unless each of the differences c, c - 1, .., c - k + 1 passes exactly one of the
   tests  > 1,  in (0, 1),  < 0 *)
Definition dir_fine (b : bop K) (T : vmem) : Prop :=
  match b with
  | LogOp _ arg _ => eqb K (T arg) (zero K) = false
  | PowOp _ arg _ c =>
      eqb K (T arg) (zero K) = true -> leb K c (zero K) = false ->
      if negb (eqb K (sub K c (vfloor K (if eqb K c (zero K) then zero K else one K))) (zero K))
      then forall i, i < k -> moves c i = true
      else eqb K c (one K) = true
  | _ => True
  end.

Lemma wval_same p l ps x xc n b T C D : l < p -> same l C D -> dir_fine b T ->
  same l (wval p k ps x xc n b T C) (hval k ps x (fun j => xc j l) n b T D).
Proof.
  intros L E F. destruct b; cbn [wval hval]; cbv zeta; auto;
  try (apply wrow_same; auto; now intros ? ? ? H; rewrite ?H).
  all: try (apply wprow_same; auto; intros i c' d' I Ec;
    rewrite ?(lin_same _ _ _ _ I Ec), ?(Ec res i) by auto; reflexivity).
  all: try (now apply wexp_same); try (now apply wtrig_same); try (now apply whelp_same).
  all: try (now apply wsqrt_same); try (now apply wmin_same); try (now apply wabs_same).
  all: try (now apply wcopy_same); try (now apply waxpy_same); try (now apply wstock_same).
  all: try (apply wrow_same; auto; [intros ? ? ? H; now rewrite ?H|intros ? ? ? H; now rewrite ?H|
              intros i c' d' I Ec; rewrite ?(fun x => Ec x i I); reflexivity]).
  - exact (@wind_same p l _ (xc n) C D L E).
  - apply wdiv_same; auto. intros i c' d' I Ec. now rewrite ?(fun x => Ec x i I).
  - apply wdiv_same; auto. intros i c' d' I Ec. now rewrite ?(fun x => Ec x i I).
  - match goal with |- same _ (match wspecial _ _ ?f ?v ?a ?r _ with _ => _ end) _ =>
      pose proof (@wspecial_same p l f v a r C D L E) as S end.
    destruct (wspecial _ _ _ _ _ _ _), (hspecial _ _ _ _ _ _); auto; try contradiction.
    now apply whelp_same.
  - cbn [dir_fine] in F. rewrite F. cbn [andb]. now apply wlog_same.
  - cbn [dir_fine] in F. destruct (eqb K (T arg) (zero K)); [|now apply wpow_same].
    destruct (leb K c (zero K)); [now apply wrow_same|]. specialize (F eq_refl eq_refl).
    destruct (negb _).
    + rewrite wpowfrac_eq, powfrac_eq by auto. now apply (@wind_same p l _ (fun _ => fracval c)).
    + rewrite F. apply wrow_same; auto.
  - destruct (ltb K (zero K) (T arg)); auto. apply wrow_same; auto.
  - destruct (leb K (zero K) (T arg)); auto. apply wrow_same; auto.
  - apply wdot_same; auto. now apply wrow_same.
Qed.
End Proofs.
