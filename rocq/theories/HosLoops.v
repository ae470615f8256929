(* What the coefficient loops of hos_forward leave in the rows, over the reals.
   Used by C21.                                                            *)
From Coq Require Import List ZArith Bool Arith Lia Reals Lra.
From Coquelicot Require Import Coquelicot.
Require Import Verif.AdModel Verif.AdReal Verif.HosModel Verif.HosSpec Verif.HosTay.
Import ListNotations.
Set Implicit Arguments.
Unset Asymmetric Patterns.
Local Open Scope R_scope.

Notation rrows := (nat -> nat -> R).
Notation rput := (@put reals).

Lemma put_same (C : rrows) l i v : rput C l i v l i = v.
Proof. unfold put. now rewrite !Nat.eqb_refl. Qed.
Lemma put_loc (C : rrows) l i v l' j : l' <> l -> rput C l i v l' j = C l' j.
Proof. intros H. unfold put. apply Nat.eqb_neq in H. now rewrite H. Qed.
Lemma put_idx (C : rrows) l i v l' j : j <> i -> rput C l i v l' j = C l' j.
Proof. intros H. unfold put. apply Nat.eqb_neq in H. now rewrite H, andb_false_r. Qed.

(* C' is C with the first k entries of row res replaced by y *)
Definition newrow (k res : nat) (C C' : rrows) (y : nat -> R) : Prop :=
  (forall l j, l <> res -> C' l j = C l j) /\
  (forall j, (k <= j)%nat -> C' res j = C res j) /\
  (forall j, (j < k)%nat -> C' res j = y j).

(* ascending loops *)
Section Up.
Variables (k res : nat) (C : rrows).
Variable vf : nat -> rrows -> (nat -> R) -> R.
Variable zf : nat -> rrows -> R.
Variable E : nat -> (nat -> R) -> R.
Variable Z : nat -> R.
(* C1 is C up to row res, which is old from i on *)
Definition mid (i : nat) (C1 : rrows) : Prop :=
  (forall l j, l <> res -> C1 l j = C l j) /\ (forall j, (i <= j)%nat -> C1 res j = C res j).
Hypothesis Hz : forall i C1, mid i C1 -> (i < k)%nat -> zf i C1 = Z i.
Hypothesis Hv : forall i C1 z, mid i C1 -> (i < k)%nat -> (forall j, (j <= i)%nat -> z j = Z j) ->
  vf i C1 z = E i (C1 res).
Hypothesis HE : forall i y y', (forall j, (j < i)%nat -> y j = y' j) -> E i y = E i y'.

Lemma zloop_spec :
  let C' := @zloop reals k (fun i s => let (C, z) := s in
              let z := @putz reals z i (zf i C) in (rput C res i (vf i C z), z)) C in
  (forall l j, l <> res -> C' l j = C l j) /\
  (forall j, (k <= j)%nat -> C' res j = C res j) /\
  (forall i, (i < k)%nat -> C' res i = E i (C' res)).
Proof.
  cbv zeta. unfold zloop.
  match goal with |- context [up k ?b _] => set (body := b) end.
  assert (P : forall n, (n <= k)%nat -> let s := up n body (C, fun _ => 0) in
    mid n (fst s) /\ (forall j, (j < n)%nat -> snd s j = Z j) /\
    (forall i, (i < n)%nat -> fst s res i = E i (fst s res))).
  { induction n as [|n IH]; intros Hn; cbv zeta; cbn [up].
    - split; [split; auto|]. split; intros; lia.
    - destruct IH as (M & S & Q); [lia|]. cbv zeta in M, S, Q.
      change (zero reals) with 0 in *.
      destruct (up n body (C, fun _ => 0)) as [C1 z1]. cbn [fst snd] in *.
      unfold body at 1 2 3 4. cbn [fst snd].
      assert (Zn : zf n C1 = Z n) by (apply Hz; auto; lia).
      set (z2 := @putz reals z1 n (zf n C1)).
      assert (Z2 : forall j, (j <= n)%nat -> z2 j = Z j).
      { intros j Hj. unfold z2, putz. destruct (j =? n)%nat eqn:F.
        - apply Nat.eqb_eq in F. now subst. - apply Nat.eqb_neq in F. apply S. lia. }
      assert (V : vf n C1 z2 = E n (C1 res)) by (apply Hv; auto; lia).
      destruct M as [M1 M2].
      split; [split|split].
      + intros l j Hl. rewrite put_loc; auto.
      + intros j Hj. rewrite put_idx by lia. apply M2. lia.
      + intros j Hj. apply Z2. lia.
      + intros i Hi. destruct (Nat.eq_dec i n) as [->|Ni].
        * rewrite put_same, V. apply HE. intros j Hj. rewrite put_idx by lia. reflexivity.
        * rewrite put_idx by auto. rewrite Q by lia. apply HE. intros j Hj. rewrite put_idx by lia. reflexivity. }
  destruct (P k (le_n _)) as ([M1 M2] & _ & Q). repeat split; auto.
Qed.
End Up.

Lemma up_ext (A : Type) n (f g : nat -> A -> A) s : (forall i a, (i < n)%nat -> f i a = g i a) ->
  up n f s = up n g s.
Proof. induction n; cbn; intros H; auto. rewrite IHn, H by auto. reflexivity. Qed.

Lemma up_fst k res vf C : forall z : nat -> R,
  up k (fun i C => rput C res i (vf i C)) C =
  fst (up k (fun i (s : rrows * (nat -> R)) => let (C, z) := s in
               let z := @putz reals z i 0 in (rput C res i (vf i C), z)) (C, z)).
Proof.
  intros z. induction k; cbn [up]; auto. rewrite IHk.
  match goal with |- context [up k ?b (C, z)] => destruct (up k b (C, z)) as [C1 z1] end. reflexivity.
Qed.

Section Plain.
Variables (k res : nat) (C : rrows).
Variable vf : nat -> rrows -> R.
Variable E : nat -> (nat -> R) -> R.
Hypothesis Hv : forall i C1, mid res C i C1 -> (i < k)%nat -> vf i C1 = E i (C1 res).
Hypothesis HE : forall i y y', (forall j, (j < i)%nat -> y j = y' j) -> E i y = E i y'.
Lemma uploop_spec :
  let C' := up k (fun i C => rput C res i (vf i C)) C in
  (forall l j, l <> res -> C' l j = C l j) /\
  (forall j, (k <= j)%nat -> C' res j = C res j) /\
  (forall i, (i < k)%nat -> C' res i = E i (C' res)).
Proof.
  cbv zeta. rewrite (@up_fst k res vf C (fun _ => 0)).
  apply (@zloop_spec k res C (fun i C _ => vf i C) (fun _ _ => 0) E (fun _ => 0)); auto.
Qed.
End Plain.

Lemma row_spec k res (g : nat -> rrows -> R) C :
  (forall i C1, (i < k)%nat -> (forall l, C1 l i = C l i) -> g i C1 = g i C) ->
  newrow k res C (@row reals k res g C) (fun i => g i C).
Proof.
  intros H. unfold row.
  destruct (@uploop_spec k res C g (fun i _ => g i C)) as (A & B & D).
  - intros i C1 [M1 M2] Hi. apply H; auto. intros l. destruct (Nat.eq_dec l res) as [->|N]; auto.
  - auto.
  - split; auto.
Qed.

(* descending loops *)
Lemma dn_spec k res (vf : nat -> rrows -> R) C :
  (forall i C1, (i < k)%nat -> (forall l j, (j <= i)%nat -> C1 l j = C l j) -> vf i C1 = vf i C) ->
  newrow k res C (dn k (fun i C => rput C res i (vf i C)) C) (fun i => vf i C).
Proof.
  revert C. induction k as [|k IH]; intros C H; cbn.
  - split; [auto|]. split; [auto|intros; lia].
  - destruct (IH (rput C res k (vf k C))) as (A & B & D).
    + intros i C1 Hi E1.
      assert (F : forall l j, (j <= i)%nat -> rput C res k (vf k C) l j = C l j).
      { intros l j Hj. apply put_idx. lia. }
      rewrite (H i C1), (H i (rput C res k (vf k C))) by (auto; intros; rewrite ?E1; auto; lia). reflexivity.
    + split; [|split].
      * intros l j Hl. rewrite A by auto. now apply put_loc.
      * intros j Hj. rewrite B by lia. apply put_idx. lia.
      * intros j Hj. destruct (Nat.eq_dec j k) as [->|N].
        -- rewrite B by lia. apply put_same.
        -- rewrite D by lia. apply H; [lia|]. intros l m Hm. apply put_idx. lia.
Qed.

(* accumulating inner loops *)
Lemma up_add n (g : nat -> R) v : up n (fun j acc => acc + g j) v = v + rsum n g.
Proof. induction n; cbn; [ring|]. rewrite IHn. ring. Qed.
Lemma up_sub n (g : nat -> R) v : up n (fun j acc => acc - g j) v = v - rsum n g.
Proof. induction n; cbn; [ring|]. rewrite IHn. ring. Qed.

Lemma prow_add k res a1 a2 (first : nat -> rrows -> R) C :
  (forall i C1, (i < k)%nat -> (forall l, C1 l i = C l i) -> first i C1 = first i C) ->
  newrow k res C (@prow reals Rplus k res a1 a2 first C)
    (fun i => first i C + rsum i (fun j => C a1 j * C a2 (i - 1 - j)%nat)).
Proof.
  intros H. unfold prow. cbn [mul reals].
  set (vf := fun i (C : rrows) => up i (fun j acc => acc + C a1 j * C a2 (i - 1 - j)%nat) (first i C)).
  match goal with |- newrow _ _ _ _ ?y => change (newrow k res C (dn k (fun i C => rput C res i (vf i C)) C) y) end.
  destruct (@dn_spec k res vf C) as (A & B & D).
  - intros i C1 Hi E. unfold vf. rewrite !up_add. rewrite (H i C1) by auto. f_equal.
    apply rsum_ext. intros j Hj. rewrite !E by lia. reflexivity.
  - split; [exact A|]. split; [exact B|]. intros j Hj. rewrite (D j Hj). unfold vf. now rewrite up_add.
Qed.
Lemma prow_sub k res a1 a2 (first : nat -> rrows -> R) C :
  (forall i C1, (i < k)%nat -> (forall l, C1 l i = C l i) -> first i C1 = first i C) ->
  newrow k res C (@prow reals Rminus k res a1 a2 first C)
    (fun i => first i C - rsum i (fun j => C a1 j * C a2 (i - 1 - j)%nat)).
Proof.
  intros H. unfold prow. cbn [mul reals].
  set (vf := fun i (C : rrows) => up i (fun j acc => acc - C a1 j * C a2 (i - 1 - j)%nat) (first i C)).
  match goal with |- newrow _ _ _ _ ?y => change (newrow k res C (dn k (fun i C => rput C res i (vf i C)) C) y) end.
  destruct (@dn_spec k res vf C) as (A & B & D).
  - intros i C1 Hi E. unfold vf. rewrite !up_sub. rewrite (H i C1) by auto. f_equal.
    apply rsum_ext. intros j Hj. rewrite !E by lia. reflexivity.
  - split; [exact A|]. split; [exact B|]. intros j Hj. rewrite (D j Hj). unfold vf. now rewrite up_sub.
Qed.

(* rows with a recurrence: C' is C with the first k entries of row res replaced
   by the solution of y i = E i y *)
Definition recrow (k res : nat) (C C' : rrows) (E : nat -> (nat -> R) -> R) : Prop :=
  (forall l j, l <> res -> C' l j = C l j) /\
  (forall j, (k <= j)%nat -> C' res j = C res j) /\
  (forall i, (i < k)%nat -> C' res i = E i (C' res)).

Lemma mid_at res C i C1 l : mid res C i C1 -> C1 l i = C l i.
Proof. intros [A B]. destruct (Nat.eq_dec l res) as [->|N]; auto. Qed.

Lemma divrow_spec k res den divs (first : nat -> rrows -> R) C :
  (forall i C1, (i < k)%nat -> (forall l, C1 l i = C l i) -> first i C1 = first i C) ->
  recrow k res C (@divrow reals k res den divs first C)
    (fun i y => first i C + rsum i (fun j => y j * (- C den (i - 1 - j)%nat * divs))).
Proof.
  intros H. unfold divrow. cbn [mul add neg reals].
  refine (@zloop_spec k res C
    (fun i C z => up i (fun j acc => acc + C res j * z (i - 1 - j)%nat) (first i C))
    (fun i C => - C den i * divs) _ (fun i => - C den i * divs) _ _ _).
  - intros i C1 M Hi. cbv beta. rewrite (mid_at den M). reflexivity.
  - intros i C1 z M Hi Z. rewrite up_add. rewrite (H i C1) by (auto; intros; apply (mid_at l M)).
    f_equal. apply rsum_ext. intros j Hj. rewrite Z by lia. reflexivity.
  - intros i y y' Ey. f_equal. apply rsum_ext. intros j Hj. now rewrite Ey.
Qed.

Definition rnum (i : nat) : R := INR (S i).
Lemma rnum_nz i : rnum i <> 0.
Proof. apply not_0_INR. lia. Qed.

Lemma exprow_spec k arg res v C :
  recrow k res C (@exprow reals k arg res v C)
    (fun i y => (v * C arg i * rnum i + rsum i (fun j => y j * (rnum (i - 1 - j) * C arg (i - 1 - j)%nat))) / rnum i).
Proof.
  unfold exprow. cbn [mul add dvd reals].
  refine (@zloop_spec k res C
    (fun i C z => up i (fun j acc => acc + C res j * z (i - 1 - j)%nat) (v * C arg i * rnum i) / rnum i)
    (fun i C => rnum i * C arg i) _ (fun i => rnum i * C arg i) _ _ _).
  - intros i C1 M Hi. cbv beta. rewrite (mid_at arg M). reflexivity.
  - intros i C1 z M Hi Z. rewrite up_add, (mid_at arg M).
    f_equal. f_equal. apply rsum_ext. intros j Hj. rewrite Z by lia. reflexivity.
  - intros i y y' Ey. f_equal. f_equal. apply rsum_ext. intros j Hj. now rewrite Ey.
Qed.

Lemma helprow_spec k a1 a2 res v2 C : a2 <> res ->
  recrow k res C (@helprow reals k a1 a2 res v2 C)
    (fun i y => (v2 * C a1 i * rnum i + rsum i (fun j => C a2 j * (rnum (i - 1 - j) * C a1 (i - 1 - j)%nat))) / rnum i).
Proof.
  intros N. unfold helprow. cbn [mul add dvd reals].
  refine (@zloop_spec k res C
    (fun i C z => up i (fun j acc => acc + C a2 j * z (i - 1 - j)%nat) (v2 * C a1 i * rnum i) / rnum i)
    (fun i C => rnum i * C a1 i) _ (fun i => rnum i * C a1 i) _ _ _).
  - intros i C1 M Hi. cbv beta. rewrite (mid_at a1 M). reflexivity.
  - intros i C1 z M Hi Z. rewrite up_add, (mid_at a1 M). destruct M as [M _].
    f_equal. f_equal. apply rsum_ext. intros j Hj. rewrite Z, M by (auto; lia). reflexivity.
  - reflexivity.
Qed.

Lemma logrow_spec k arg res divs C :
  recrow k res C (@logrow reals k arg res divs C)
    (fun i y => (C arg i * divs * rnum i - rsum i (fun j => C arg (i - 1 - j)%nat * divs * y j * rnum j)) / rnum i).
Proof.
  unfold logrow. cbn [mul sub dvd reals].
  refine (@zloop_spec k res C
    (fun i C z => up i (fun j acc => acc - z (i - 1 - j)%nat * C res j * rnum j) (C arg i * divs * rnum i) / rnum i)
    (fun i C => C arg i * divs) _ (fun i => C arg i * divs) _ _ _).
  - intros i C1 M Hi. cbv beta. rewrite (mid_at arg M). reflexivity.
  - intros i C1 z M Hi Z. rewrite up_sub, (mid_at arg M).
    f_equal. f_equal. apply rsum_ext. intros j Hj. rewrite Z by lia. reflexivity.
  - intros i y y' Ey. f_equal. f_equal. apply rsum_ext. intros j Hj. now rewrite Ey.
Qed.

Lemma up_pow n (h : nat -> R) c v w :
  up n (fun j (p : R * R) => let (acc, y) := p in (acc + h j * y, y - (c + 1))) (v, w) =
  (v + rsum n (fun j => h j * (w - INR j * (c + 1))), w - INR n * (c + 1)).
Proof.
  induction n; [cbn; f_equal; ring|]. cbn [up rsum]. rewrite IHn, S_INR. f_equal; ring.
Qed.

Lemma powrow_spec k arg res v c r0 C :
  recrow k res C (@powrow reals k arg res v c r0 C)
    (fun i y => (v * C arg i * c * r0 * rnum i
                 + rsum i (fun j => y j * (C arg (i - 1 - j)%nat * r0) * (c * INR i - 1 - INR j * (c + 1)))) / rnum i).
Proof.
  unfold powrow. cbn [mul sub add dvd one reals ofnat].
  refine (@zloop_spec k res C
    (fun i C z => fst (up i (fun j (p : R * R) => let (acc, y) := p in
        (acc + C res j * z (i - 1 - j)%nat * y, y - (c + 1))) (v * C arg i * c * r0 * rnum i, c * INR i - 1)) / rnum i)
    (fun i C => C arg i * r0) _ (fun i => C arg i * r0) _ _ _).
  - intros i C1 M Hi. cbv beta. rewrite (mid_at arg M). reflexivity.
  - intros i C1 z M Hi Z. rewrite up_pow, (mid_at arg M). cbn [fst].
    f_equal. f_equal. apply rsum_ext. intros j Hj. rewrite Z by lia. reflexivity.
  - intros i y y' Ey. f_equal. f_equal. apply rsum_ext. intros j Hj. now rewrite Ey.
Qed.

(* sqrt: half of the symmetric sum is formed and doubled *)
Lemma rsum_split n m f : rsum (n + m) f = rsum n f + rsum m (fun i => f (n + i)%nat).
Proof.
  induction m; [rewrite Nat.add_0_r; cbn; ring|].
  rewrite Nat.add_succ_r. cbn [rsum]. rewrite IHm. ring.
Qed.
Lemma sym_sum i (y : nat -> R) :
  rsum i (fun j => y j * y (i - 1 - j)%nat) =
  rsum (Nat.div2 i) (fun j => y j * y (i - 1 - j)%nat) * 2 +
  (if Nat.odd i then y (Nat.div2 i) * y (Nat.div2 i) else 0).
Proof.
  set (f := fun j => y j * y (i - 1 - j)%nat).
  assert (Sy : forall j, (j < i)%nat -> f (i - 1 - j)%nat = f j).
  { intros j Hj. unfold f. replace (i - 1 - (i - 1 - j))%nat with j by lia. ring. }
  pose proof (Nat.div2_odd i) as O. set (d := Nat.div2 i) in *.
  destruct (Nat.odd i) eqn:Od; cbn [Nat.b2n] in O.
  - assert (F : rsum i f = rsum d f + f d + rsum d (fun j => f (S d + j)%nat)).
    { replace (rsum i f) with (rsum (S d + d) f) by (f_equal; lia). rewrite rsum_split. reflexivity. }
    rewrite F. assert (G : rsum d (fun j => f (S d + j)%nat) = rsum d f).
    { rewrite (rsum_rev d f). apply rsum_ext. intros j Hj. rewrite <- (Sy (d - 1 - j)%nat) by lia. f_equal. lia. }
    rewrite G. unfold f at 2. replace (i - 1 - d)%nat with d by lia. ring.
  - assert (F : rsum i f = rsum d f + rsum d (fun j => f (d + j)%nat)).
    { replace (rsum i f) with (rsum (d + d) f) by (f_equal; lia). now rewrite rsum_split. }
    rewrite F. assert (G : rsum d (fun j => f (d + j)%nat) = rsum d f).
    { rewrite (rsum_rev d f). apply rsum_ext. intros j Hj. rewrite <- (Sy (d - 1 - j)%nat) by lia. f_equal. lia. }
    rewrite G. ring.
Qed.
Lemma sqrtrow_spec k arg res r0 C :
  recrow k res C (@sqrtrow reals k arg res r0 C)
    (fun i y => r0 * C arg i - r0 * rsum i (fun j => y j * y (i - 1 - j)%nat)).
Proof.
  unfold sqrtrow. cbn [mul sub add zero two reals].
  refine (@uploop_spec k res C (fun i C => let y := r0 * C arg i in
     let x := up (Nat.div2 i) (fun j acc => acc + C res j * C res (i - 1 - j)%nat) 0 in
     let x := x * 2 in
     let x := if Nat.odd i then x + C res (Nat.div2 i) * C res (Nat.div2 i) else x in
     y - r0 * x) _ _ _).
  - intros i C1 M Hi. cbv zeta. rewrite up_add, (mid_at arg M).
    rewrite sym_sum. destruct (Nat.odd i); ring.
  - intros i y y' Ey. f_equal. f_equal. apply rsum_ext. intros j Hj. rewrite !Ey by lia. reflexivity.
Qed.

Lemma absrow_spec k arg res v C : v <> 0 ->
  newrow k res C (@absrow reals k arg res v C) (fun i => (if Rltb v 0 then -1 else 1) * C arg i).
Proof.
  intros Hv. unfold absrow, lt0. cbn [eqb zero neg one mul ltb reals].
  set (x0 := if Reqb v 0 then 0 else if Rltb v 0 then - (1) else 1). match goal with |- context [up k ?b _] => set (body := b) end.
  assert (X0 : x0 = if Rltb v 0 then -1 else 1).
  { unfold x0, Reqb. destruct (Req_EM_T v 0); [contradiction|]. destruct (Rltb v 0); lra. }
  assert (XN : Reqb x0 0 = false).
  { rewrite X0. unfold Reqb. destruct (Rltb v 0); destruct (Req_EM_T _ 0); auto; lra. }
  assert (P : forall n, up n body (C, x0) = (@row reals n res (fun i C => x0 * C arg i) C, x0)).
  { induction n as [|n IH]; auto. cbn [up]. rewrite IH. unfold body at 1. rewrite XN. cbn [andb].
    reflexivity. }
  rewrite P. cbn [fst]. rewrite <- X0. apply row_spec. intros i C1 Hi E. now rewrite E.
Qed.

Ltac rring := match goal with |- @eq _ ?a ?b => change (@eq R a b) end; ring.

(* sine and cosine *)
Lemma up_trig i a2 res e2 er (z : nat -> R) (C : rrows) : a2 <> res ->
  let C' := up i (fun j C =>
       let C := rput C res i (C res i + er * (C a2 j * z (i - 1 - j)%nat)) in
       rput C a2 i (C a2 i + e2 * (C res j * z (i - 1 - j)%nat))) C in
  (forall l j, (l <> res /\ l <> a2) \/ j <> i -> C' l j = C l j) /\
  C' res i = C res i + er * rsum i (fun j => C a2 j * z (i - 1 - j)%nat) /\
  C' a2 i = C a2 i + e2 * rsum i (fun j => C res j * z (i - 1 - j)%nat).
Proof.
  intros N. cbv zeta.
  assert (P : forall n, (n <= i)%nat -> let C' := up n (fun j C =>
       let C := rput C res i (C res i + er * (C a2 j * z (i - 1 - j)%nat)) in
       rput C a2 i (C a2 i + e2 * (C res j * z (i - 1 - j)%nat))) C in
    (forall l j, (l <> res /\ l <> a2) \/ j <> i -> C' l j = C l j) /\
    C' res i = C res i + er * rsum n (fun j => C a2 j * z (i - 1 - j)%nat) /\
    C' a2 i = C a2 i + e2 * rsum n (fun j => C res j * z (i - 1 - j)%nat)).
  { induction n as [|n IH]; intros Hn; cbv zeta; cbn [up rsum].
    - split; auto. split; rring.
    - destruct IH as (A & B & D); [lia|]. match type of B with context [up n ?b C] => set (C1 := up n b C) in * end.
      assert (A1 : forall l, C1 l n = C l n) by (intros l; apply A; right; lia).
      split; [|split].
      + intros l j [[H1 H2]|H].
        * rewrite put_loc, put_loc by auto. apply A. auto.
        * rewrite put_idx, put_idx by auto. apply A. auto.
      + rewrite put_loc by auto. rewrite put_same, B, !A1. rring.
      + rewrite put_same. rewrite (@put_loc C1 res i _ a2 i) by auto.
        rewrite (@put_idx C1 res i _ res n) by lia. rewrite D, A1. rring. }
  apply (P i (le_n _)).
Qed.

Lemma trigrow_spec k a1 a2 res m2 mr e2 er (f2 fr : R -> R) (o2 o_r : R -> R -> R) (C : rrows) :
  (forall v, f2 v = m2 * v) -> (forall v, fr v = mr * v) ->
  (forall v w, o2 v w = v + e2 * w) -> (forall v w, o_r v w = v + er * w) ->
  a2 <> a1 -> a2 <> res ->
  let C' := @trigrow reals k a1 a2 res f2 fr o2 o_r C in
  (forall l j, (l <> res /\ l <> a2) -> C' l j = C l j) /\
  (forall i, (i < k)%nat ->
     C' res i = (mr * C a1 i * rnum i + er * rsum i (fun j => C' a2 j * (rnum (i - 1 - j) * C a1 (i - 1 - j)%nat))) / rnum i /\
     C' a2 i = (m2 * C a1 i * rnum i + e2 * rsum i (fun j => C' res j * (rnum (i - 1 - j) * C a1 (i - 1 - j)%nat))) / rnum i).
Proof.
  intros F2 FR O2 OR N1 N2. cbv zeta. unfold trigrow, zloop. cbn [mul dvd zero reals].
  match goal with |- context [up k ?b _] => set (body := b) end.
  assert (P : forall n, (n <= k)%nat -> let s := up n body (C, fun _ => 0) in let C' := fst s in
    (forall l j, (l <> res /\ l <> a2) \/ (n <= j)%nat -> C' l j = C l j) /\
    (forall j, (j < n)%nat -> snd s j = rnum j * C a1 j) /\
    (forall i, (i < n)%nat ->
     C' res i = (mr * C a1 i * rnum i + er * rsum i (fun j => C' a2 j * (rnum (i - 1 - j) * C a1 (i - 1 - j)%nat))) / rnum i /\
     C' a2 i = (m2 * C a1 i * rnum i + e2 * rsum i (fun j => C' res j * (rnum (i - 1 - j) * C a1 (i - 1 - j)%nat))) / rnum i)).
  { induction n as [|n IH]; intros Hn; cbv zeta; cbn [up].
    - repeat split; auto; intros; lia.
    - destruct IH as (A & B & D); [lia|]. cbv zeta in A, B, D.
      destruct (up n body (C, fun _ => 0)) as [C1 z1]. cbn [fst snd] in *.
      unfold body. cbn [fst snd].
      change (@num reals n) with (rnum n).
      set (z2 := @putz reals z1 n (rnum n * C1 a1 n)).
      assert (E1 : forall l, C1 l n = C l n) by (intros l; apply A; right; lia).
      assert (Z2 : forall j, (j < S n)%nat -> z2 j = rnum j * C a1 j).
      { intros j Hj. unfold z2, putz. destruct (j =? n)%nat eqn:F.
        - apply Nat.eqb_eq in F. subst j. now rewrite E1. - apply Nat.eqb_neq in F. apply B. lia. }
      set (Ca := rput C1 a2 n (f2 (C1 a1 n))).
      set (Cb := rput Ca res n (fr (Ca a1 n))).
      set (Cc := rput Cb res n (Cb res n * rnum n)).
      set (Cd := rput Cc a2 n (Cc a2 n * rnum n)).
      assert (K : forall l j, (l <> res /\ l <> a2) \/ j <> n -> Cd l j = C1 l j).
      { intros l j [[H1 H2]|H]; unfold Cd, Cc, Cb, Ca.
        - rewrite !put_loc; auto. - rewrite !put_idx; auto. }
      assert (Kr : Cd res n = mr * C a1 n * rnum n).
      { unfold Cd. rewrite put_loc by auto. unfold Cc. rewrite put_same. unfold Cb. rewrite put_same, FR.
        unfold Ca. rewrite put_loc by auto. rewrite E1. rring. }
      assert (K2 : Cd a2 n = m2 * C a1 n * rnum n).
      { unfold Cd. rewrite put_same. unfold Cc. rewrite put_loc by auto. unfold Cb. rewrite put_loc by auto.
        unfold Ca. rewrite put_same, F2, E1. rring. }
      rewrite (@up_ext _ n _ (fun j C =>
         let C := rput C res n (C res n + er * (C a2 j * z2 (n - 1 - j)%nat)) in
         rput C a2 n (C a2 n + e2 * (C res j * z2 (n - 1 - j)%nat))) Cd) by
        (intros j Cx Hj; cbv zeta; now rewrite O2, OR).
      destruct (@up_trig n a2 res e2 er z2 Cd N2) as (U & Ur & U2). cbv zeta in U, Ur, U2.
      match type of Ur with context [up n ?b Cd] => set (Ce := up n b Cd) in * end.
      assert (W : forall j, (j < n)%nat -> Cd a2 j = C1 a2 j /\ Cd res j = C1 res j).
      { intros j Hj. split; apply K; right; lia. }
      set (Cf := rput (rput Ce a2 n (Ce a2 n / rnum n)) res n (rput Ce a2 n (Ce a2 n / rnum n) res n / rnum n)).
      assert (Kf : forall l j, (l <> res /\ l <> a2) \/ j <> n -> Cf l j = C1 l j).
      { intros l j H. unfold Cf. destruct H as [[H1 H2]|H].
        - rewrite !put_loc by auto. rewrite U by auto. apply K; auto.
        - rewrite !put_idx by auto. rewrite U by auto. apply K; auto. }
      assert (Fr : Cf res n = (mr * C a1 n * rnum n + er * rsum n (fun j => Cf a2 j * (rnum (n - 1 - j) * C a1 (n - 1 - j)%nat))) / rnum n).
      { unfold Cf at 1. rewrite put_same. rewrite put_loc by auto. rewrite Ur, Kr. f_equal. f_equal. f_equal.
        apply rsum_ext. intros j Hj. rewrite Z2 by lia. rewrite (proj1 (W j Hj)), Kf by (right; lia). reflexivity. }
      assert (F2' : Cf a2 n = (m2 * C a1 n * rnum n + e2 * rsum n (fun j => Cf res j * (rnum (n - 1 - j) * C a1 (n - 1 - j)%nat))) / rnum n).
      { unfold Cf at 1. rewrite put_loc by auto. rewrite put_same, U2, K2. f_equal. f_equal. f_equal.
        apply rsum_ext. intros j Hj. rewrite Z2 by lia. rewrite (proj2 (W j Hj)), Kf by (right; lia). reflexivity. }
      split; [|split].
      + intros l j H. change (Cf l j = C l j). rewrite Kf by (destruct H; [auto|right; lia]). apply A. destruct H; [auto|right; lia].
      + exact Z2.
      + intros i Hi. change (Cf res i = (mr * C a1 i * rnum i + er * rsum i (fun j => Cf a2 j * (rnum (i - 1 - j) * C a1 (i - 1 - j)%nat))) / rnum i /\
          Cf a2 i = (m2 * C a1 i * rnum i + e2 * rsum i (fun j => Cf res j * (rnum (i - 1 - j) * C a1 (i - 1 - j)%nat))) / rnum i).
        destruct (Nat.eq_dec i n) as [->|Ni]; [split; assumption|].
        destruct (D i ltac:(lia)) as [D1 D2]. rewrite !(Kf _ i) by (right; auto). rewrite D1, D2 at 1.
        split; f_equal; f_equal; f_equal; apply rsum_ext; intros j Hj; rewrite Kf by (right; lia); reflexivity. }
  destruct (P k (le_n _)) as (A & _ & D). split; auto.
Qed.
