(* C29: the Fortran conversions are exact and inverse to each other.

   The Fortran element x(i,j,k) (0-based) of an m x n x p array is at position
   i + m*(j + n*k) (column order). *)
From Coq Require Import List ZArith Bool Lia Arith.
Require Import Verif.FortModel.
Set Implicit Arguments.

Section Props.
Variable V : Type.

(* element positions of Fortran arrays *)
Definition col2 (m i j : nat) : nat := i + m * j.
Definition col3 (m n i j k : nat) : nat := i + m * (j + n * k).

Lemma loop_ind (S : Type) (body : nat -> S -> S) (P : nat -> S -> Prop) : forall n i s,
  P i s -> (forall j s, i <= j < i + n -> P j s -> P (Datatypes.S j) (body j s)) ->
  P (i + n) (loop n i body s).
Proof.
  induction n as [|n IH]; intros i s H0 HS; cbn [loop].
  - now rewrite Nat.add_0_r.
  - rewrite Nat.add_succ_r, <- Nat.add_succ_l. apply IH.
    + apply HS; auto. lia.
    + intros j t Hj. apply HS. lia.
Qed.

Ltac eqs := repeat match goal with
  | |- context [Nat.eqb ?a ?b] => destruct (Nat.eqb_spec a b)
  | H : context [Nat.eqb ?a ?b] |- _ => destruct (Nat.eqb_spec a b)
  end; cbn [andb].

Lemma cross_nat m i j i' j' : i < m -> i' < m -> i + m * j = i' + m * j' -> i = i' /\ j = j'.
Proof.
  intros H H' E. assert (j = j') by (apply Nat.div_mod_unique with (b := m) (r1 := i) (r2 := i'); lia).
  subst. lia.
Qed.

Theorem C29_spread1 (m : Z) (x X : nat -> V) i :
  spread1 m x X i = if i <? Z.to_nat m then x i else X i.
Proof.
  unfold spread1, iters. set (M := Z.to_nat m).
  pose (P := fun j (s : nat * (nat -> V)) => fst s = j /\ forall a, snd s a = if a <? j then x a else X a).
  destruct (@loop_ind _ (fun j '(q, X) => (S q, upd1 X j (x q))) P M 0 (0, X)) as [_ H].
  - split; auto.
  - intros j [q Y] Hj [Ej HY]. cbn [fst snd] in *. subst q. split; auto. intros a. cbn [fst snd]. unfold upd1. rewrite HY.
    destruct (Nat.eqb_spec a j); destruct (Nat.ltb_spec a (S j)); destruct (Nat.ltb_spec a j); try lia; subst; auto.
  - apply H.
Qed.
Theorem C29_pack1 (m : Z) (X x : nat -> V) i :
  pack1 m X x i = if i <? Z.to_nat m then X i else x i.
Proof.
  unfold pack1, iters. set (M := Z.to_nat m).
  pose (P := fun j (s : nat * (nat -> V)) => fst s = j /\ forall a, snd s a = if a <? j then X a else x a).
  destruct (@loop_ind _ (fun j '(q, x) => (S q, upd1 x q (X j))) P M 0 (0, x)) as [_ H].
  - split; auto.
  - intros j [q Y] Hj [Ej HY]. cbn [fst snd] in *. subst q. split; auto. intros a. cbn [fst snd]. unfold upd1. rewrite HY.
    destruct (Nat.eqb_spec a j); destruct (Nat.ltb_spec a (S j)); destruct (Nat.ltb_spec a j); try lia; subst; auto.
  - apply H.
Qed.

(* spread2 delivers the Fortran element and touches nothing else *)
Theorem C29_spread2 (m n : Z) (x : nat -> V) (X : nat -> nat -> V) i j :
  spread2 m n x X i j =
    if (i <? Z.to_nat m) && (j <? Z.to_nat n) then x (col2 (Z.to_nat m) i j) else X i j.
Proof.
  unfold spread2, iters. set (M := Z.to_nat m). set (N := Z.to_nat n).
  pose (P := fun jj (s : nat * (nat -> nat -> V)) => fst s = M * jj /\
     forall a b, snd s a b = if (a <? M) && (b <? jj) then x (col2 M a b) else X a b).
  match goal with |- snd (loop _ _ ?body _) _ _ = _ =>
    destruct (@loop_ind _ body P N 0 (0, X)) as [_ H] end.
  - split; [cbn; lia|]. intros a b. cbn. now rewrite andb_false_r.
  - intros jj s Hj [Hq HX].
    pose (Q := fun ii (s : nat * (nat -> nat -> V)) => fst s = M * jj + ii /\
      forall a b, snd s a b = if (a <? M) && (b <? jj) || (a <? ii) && (b =? jj) then x (col2 M a b) else X a b).
    match goal with |- P _ (loop _ _ ?body _) =>
      destruct (@loop_ind _ body Q M 0 s) as [H1 H2] end.
    + split; [lia|]. intros a b. rewrite HX. cbn [Nat.ltb Nat.leb andb]. now rewrite orb_false_r.
    + intros ii [q Y] Hi [Eq HY]. cbn in Eq. split; [cbn; lia|]. intros a b. cbn [snd]. unfold upd2.
      destruct (Nat.eqb_spec a ii); destruct (Nat.eqb_spec b jj); cbn [andb].
      * subst a b. destruct (Nat.ltb_spec ii (S ii)); [|lia]. rewrite orb_true_r. f_equal.
        rewrite Eq. unfold col2. lia.
      * cbn [snd] in HY. rewrite HY. destruct (Nat.eqb_spec b jj); [contradiction|]. now rewrite !andb_false_r.
      * cbn [snd] in HY. rewrite HY. subst b. rewrite Nat.eqb_refl. destruct (Nat.ltb_spec a ii); destruct (Nat.ltb_spec a (S ii)); auto; lia.
      * cbn [snd] in HY. rewrite HY. destruct (Nat.eqb_spec b jj); [contradiction|]. now rewrite !andb_false_r.
    + split; [rewrite H1; lia|]. intros a b. rewrite H2. cbn [Nat.add].
      destruct (Nat.ltb_spec a M); destruct (Nat.ltb_spec b jj); destruct (Nat.eqb_spec b jj);
        destruct (Nat.ltb_spec b (S jj)); cbn; auto; lia.
  - apply H.
Qed.

(* pack2 writes element (i,j) to its Fortran position, and nothing behind the array *)
Theorem C29_pack2 (m n : Z) (X : nat -> nat -> V) (x : nat -> V) :
  (forall i j, i < Z.to_nat m -> j < Z.to_nat n ->
     pack2 m n X x (col2 (Z.to_nat m) i j) = X i j) /\
  (forall q, Z.to_nat m * Z.to_nat n <= q -> pack2 m n X x q = x q).
Proof.
  unfold pack2, iters. set (M := Z.to_nat m). set (N := Z.to_nat n).
  pose (P := fun jj (s : nat * (nat -> V)) => fst s = M * jj /\
     (forall a b, a < M -> b < jj -> snd s (col2 M a b) = X a b) /\
     (forall q, M * jj <= q -> snd s q = x q)).
  match goal with |- context [loop N 0 ?body (0, x)] =>
    destruct (@loop_ind _ body P N 0 (0, x)) as (_ & H1 & H2) end.
  - split; [cbn; lia|]. split; [intros; lia|auto].
  - intros jj s Hj (Hq & HX & HR).
    pose (Q := fun ii (s : nat * (nat -> V)) => fst s = M * jj + ii /\
      (forall a b, a < M -> b < jj \/ b = jj /\ a < ii -> snd s (col2 M a b) = X a b) /\
      (forall q, M * jj + ii <= q -> snd s q = x q)).
    match goal with |- P _ (loop _ _ ?body _) =>
      destruct (@loop_ind _ body Q M 0 s) as (K1 & K2 & K3) end.
    + split; [lia|]. split.
      * intros a b Ha [Hb|[_ Hb]]; [auto|lia].
      * intros q Hq'. apply HR. lia.
    + intros ii [q Y] Hi (Eq & HY & HZ). cbn in Eq. split; [cbn; lia|]. split.
      * intros a b Ha Hb. cbn [snd] in *. unfold upd1. destruct (Nat.eqb_spec (col2 M a b) q).
        -- unfold col2 in e. destruct (@cross_nat M a b ii jj) as [-> ->]; auto; lia.
        -- apply HY; auto. destruct Hb as [Hb|[-> Hb]]; auto. right. split; auto.
           assert (a <> ii); [|lia]. intros ->. apply n0. unfold col2. lia.
      * intros r Hr. cbn [snd] in *. unfold upd1. destruct (Nat.eqb_spec r q); [lia|]. apply HZ. lia.
    + split; [rewrite K1; lia|]. split.
      * intros a b Ha Hb. apply K2; auto. destruct (Nat.eq_dec b jj); [right; split; auto|left; lia].
      * intros q Hq'. apply K3. lia.
  - split; [exact H1|exact H2].
Qed.

(* round trips *)
Theorem C29_pack_spread2 (m n : Z) (x x0 : nat -> V) (X : nat -> nat -> V) q :
  q < Z.to_nat m * Z.to_nat n -> pack2 m n (spread2 m n x X) x0 q = x q.
Proof.
  intros Hq. set (M := Z.to_nat m) in *. assert (M0 : M <> 0) by lia.
  assert (E : q = col2 M (q mod M) (q / M)).
  { unfold col2. rewrite (Nat.div_mod q M) at 1 by auto. lia. }
  rewrite E. destruct (C29_pack2 m n (spread2 m n x X) x0) as [H _]. fold M in H.
  assert (q mod M < M) by (now apply Nat.mod_upper_bound).
  assert (q / M < Z.to_nat n) by (apply Nat.div_lt_upper_bound; auto).
  rewrite H by auto. rewrite C29_spread2. fold M.
  destruct (Nat.ltb_spec (q mod M) M); [|lia]. destruct (Nat.ltb_spec (q / M) (Z.to_nat n)); [|lia].
  reflexivity.
Qed.
Theorem C29_spread_pack2 (m n : Z) (X X0 : nat -> nat -> V) (x : nat -> V) i j :
  i < Z.to_nat m -> j < Z.to_nat n -> spread2 m n (pack2 m n X x) X0 i j = X i j.
Proof.
  intros Hi Hj. rewrite C29_spread2.
  destruct (Nat.ltb_spec i (Z.to_nat m)); [|lia]. destruct (Nat.ltb_spec j (Z.to_nat n)); [|lia].
  cbn [andb]. now apply C29_pack2.
Qed.

(* ------------------------------------------------------------------ *)
(* three indices *)
Ltac fin :=
  repeat match goal with H : ?u <> ?w |- context [?u =? ?w] => rewrite (proj2 (Nat.eqb_neq u w) H) end;
  subst; rewrite ?Nat.eqb_refl; rewrite ?andb_false_r, ?andb_true_r, ?orb_false_r; auto;
  try match goal with |- context [?a <? S ?b] =>
    destruct (Nat.ltb_spec a b); destruct (Nat.ltb_spec a (S b)); auto; lia end.
Theorem C29_spread3 (m n p : Z) (x : nat -> V) (X : nat -> nat -> nat -> V) i j k :
  spread3 m n p x X i j k =
    if (i <? Z.to_nat m) && (j <? Z.to_nat n) && (k <? Z.to_nat p)
    then x (col3 (Z.to_nat m) (Z.to_nat n) i j k) else X i j k.
Proof.
  unfold spread3, iters. set (M := Z.to_nat m). set (N := Z.to_nat n). set (L := Z.to_nat p).
  pose (P := fun kk (s : nat * (nat -> nat -> nat -> V)) => fst s = M * (N * kk) /\
     forall a b c, snd s a b c = if (a <? M) && (b <? N) && (c <? kk) then x (col3 M N a b c) else X a b c).
  match goal with |- snd (loop _ _ ?body _) _ _ _ = _ =>
    destruct (@loop_ind _ body P L 0 (0, X)) as [_ H] end.
  - split; [cbn; lia|]. intros a b c. cbn. now rewrite andb_false_r.
  - intros kk s Hk [Hq HX].
    pose (Q := fun jj (s : nat * (nat -> nat -> nat -> V)) => fst s = M * (jj + N * kk) /\
      forall a b c, snd s a b c = if (a <? M) && (b <? N) && (c <? kk) || (a <? M) && (b <? jj) && (c =? kk)
                                  then x (col3 M N a b c) else X a b c).
    match goal with |- P _ (loop _ _ ?body _) =>
      destruct (@loop_ind _ body Q N 0 s) as [H1 H2] end.
    + split; [lia|]. intros a b c. rewrite HX. destruct (a <? M), (b <? N), (c <? kk); reflexivity.
    + intros jj t Hj [Eq HY].
      pose (R := fun ii (s : nat * (nat -> nat -> nat -> V)) => fst s = M * (jj + N * kk) + ii /\
        forall a b c, snd s a b c = if (a <? M) && (b <? N) && (c <? kk) || (a <? M) && (b <? jj) && (c =? kk)
                                       || (a <? ii) && (b =? jj) && (c =? kk)
                                  then x (col3 M N a b c) else X a b c).
      match goal with |- Q _ (loop _ _ ?body _) =>
        destruct (@loop_ind _ body R M 0 t) as [K1 K2] end.
      * split; [lia|]. intros a b c. rewrite HY. cbn [Nat.ltb Nat.leb andb]. now rewrite orb_false_r.
      * intros ii [q Y] Hi [Eq' HZ]. cbn in Eq'. split; [cbn; lia|]. intros a b c. cbn [snd] in *. unfold upd3.
        destruct (Nat.eqb_spec a ii); destruct (Nat.eqb_spec b jj); destruct (Nat.eqb_spec c kk); cbn [andb].
        -- subst a b c. destruct (Nat.ltb_spec ii (S ii)); [|lia]. cbn [andb]. rewrite orb_true_r. f_equal.
           rewrite Eq'. unfold col3. lia.
        -- rewrite HZ; fin.
        -- rewrite HZ; fin.
        -- rewrite HZ; fin.
        -- rewrite HZ; fin.
        -- rewrite HZ; fin.
        -- rewrite HZ; fin.
        -- rewrite HZ; fin.
      * split; [rewrite K1; cbn [Nat.add]; lia|]. intros a b c. rewrite K2. cbn [Nat.add].
        destruct (Nat.ltb_spec a M); destruct (Nat.ltb_spec b jj); destruct (Nat.eqb_spec b jj);
          destruct (Nat.ltb_spec b (S jj)); try lia;
          destruct (b <? N), (c <? kk), (c =? kk); reflexivity.
    + split; [rewrite H1; cbn [Nat.add]; lia|]. intros a b c. rewrite H2. cbn [Nat.add].
      destruct (a <? M), (b <? N); cbn [andb orb]; auto.
      destruct (Nat.ltb_spec c kk); destruct (Nat.eqb_spec c kk); destruct (Nat.ltb_spec c (S kk)); cbn [andb orb]; auto; lia.
  - apply H.
Qed.

Lemma cross3 m n i j k i' j' k' : i < m -> i' < m -> j < n -> j' < n ->
  col3 m n i j k = col3 m n i' j' k' -> i = i' /\ j = j' /\ k = k'.
Proof.
  intros A A' B B' E. unfold col3 in E. destruct (@cross_nat m i (j + n * k) i' (j' + n * k')) as [-> E']; auto.
  destruct (@cross_nat n j k j' k') as [-> ->]; auto.
Qed.

Theorem C29_pack3 (m n p : Z) (X : nat -> nat -> nat -> V) (x : nat -> V) :
  (forall i j k, i < Z.to_nat m -> j < Z.to_nat n -> k < Z.to_nat p ->
     pack3 m n p X x (col3 (Z.to_nat m) (Z.to_nat n) i j k) = X i j k) /\
  (forall q, Z.to_nat m * (Z.to_nat n * Z.to_nat p) <= q -> pack3 m n p X x q = x q).
Proof.
  unfold pack3, iters. set (M := Z.to_nat m). set (N := Z.to_nat n). set (L := Z.to_nat p).
  pose (P := fun kk (s : nat * (nat -> V)) => fst s = M * (N * kk) /\
     (forall a b c, a < M -> b < N -> c < kk -> snd s (col3 M N a b c) = X a b c) /\
     (forall q, M * (N * kk) <= q -> snd s q = x q)).
  match goal with |- context [loop L 0 ?body (0, x)] =>
    destruct (@loop_ind _ body P L 0 (0, x)) as (_ & H1 & H2) end.
  - split; [cbn; lia|]. split; [intros; lia|auto].
  - intros kk s Hk (Hq & HX & HR).
    pose (Q := fun jj (s : nat * (nat -> V)) => fst s = M * (jj + N * kk) /\
      (forall a b c, a < M -> b < N -> c < kk \/ c = kk /\ b < jj -> snd s (col3 M N a b c) = X a b c) /\
      (forall q, M * (jj + N * kk) <= q -> snd s q = x q)).
    match goal with |- P _ (loop _ _ ?body _) =>
      destruct (@loop_ind _ body Q N 0 s) as (K1 & K2 & K3) end.
    + split; [lia|]. split.
      * intros a b c Ha Hb [Hc|[_ Hc]]; [auto|lia].
      * intros q Hq'. apply HR. lia.
    + intros jj t Hj (Eq & HY & HZ).
      pose (R := fun ii (s : nat * (nat -> V)) => fst s = M * (jj + N * kk) + ii /\
        (forall a b c, a < M -> b < N -> c < kk \/ c = kk /\ (b < jj \/ b = jj /\ a < ii) ->
           snd s (col3 M N a b c) = X a b c) /\
        (forall q, M * (jj + N * kk) + ii <= q -> snd s q = x q)).
      match goal with |- Q _ (loop _ _ ?body _) =>
        destruct (@loop_ind _ body R M 0 t) as (R1 & R2 & R3) end.
      * split; [lia|]. split.
        -- intros a b c Ha Hb [Hc|[Hc [Hc'|[_ Hc']]]]; [apply HY; auto|apply HY; auto|lia].
        -- intros q Hq'. apply HZ. lia.
      * intros ii [q Y] Hi (Eq' & HY' & HZ'). cbn in Eq'. split; [cbn; lia|]. split.
        -- intros a b c Ha Hb Hc. cbn [snd] in *. unfold upd1. destruct (Nat.eqb_spec (col3 M N a b c) q).
           ++ destruct (@cross3 M N a b c ii jj kk) as (-> & -> & ->); auto; try lia.
              rewrite e, Eq'. unfold col3. lia.
           ++ apply HY'; auto. destruct Hc as [Hc|[-> [Hc|[-> Hc]]]]; auto. right. split; auto. right. split; auto.
              assert (a <> ii); [|lia]. intros ->. apply n0. rewrite Eq'. unfold col3. lia.
        -- intros r Hr. cbn [snd] in *. unfold upd1. destruct (Nat.eqb_spec r q); [lia|]. apply HZ'. lia.
      * split; [rewrite R1; cbn [Nat.add]; lia|]. split.
        -- intros a b c Ha Hb Hc. apply R2; auto. destruct Hc as [Hc|[-> Hc]]; auto. right. split; auto.
           destruct (Nat.eq_dec b jj); [right; split; auto|left; lia].
        -- intros q Hq'. apply R3. cbn [Nat.add]. lia.
    + split; [rewrite K1; cbn [Nat.add]; lia|]. split.
      * intros a b c Ha Hb Hc. apply K2; auto. destruct (Nat.eq_dec c kk); [right; split; auto|left; lia].
      * intros q Hq'. apply K3. cbn [Nat.add]. lia.
  - split; [exact H1|exact H2].
Qed.
Theorem C29_spread_pack3 (m n p : Z) (X X0 : nat -> nat -> nat -> V) (x : nat -> V) i j k :
  i < Z.to_nat m -> j < Z.to_nat n -> k < Z.to_nat p ->
  spread3 m n p (pack3 m n p X x) X0 i j k = X i j k.
Proof.
  intros Hi Hj Hk. rewrite C29_spread3.
  destruct (Nat.ltb_spec i (Z.to_nat m)); [|lia]. destruct (Nat.ltb_spec j (Z.to_nat n)); [|lia].
  destruct (Nat.ltb_spec k (Z.to_nat p)); [|lia]. cbn [andb]. now apply C29_pack3.
Qed.
Theorem C29_pack_spread3 (m n p : Z) (x x0 : nat -> V) (X : nat -> nat -> nat -> V) q :
  q < Z.to_nat m * (Z.to_nat n * Z.to_nat p) -> pack3 m n p (spread3 m n p x X) x0 q = x q.
Proof.
  intros Hq. set (M := Z.to_nat m) in *. set (N := Z.to_nat n) in *.
  assert (M0 : M <> 0) by lia. assert (N0 : N <> 0) by lia.
  assert (E : q = col3 M N (q mod M) ((q / M) mod N) (q / M / N)).
  { unfold col3. rewrite (Nat.div_mod q M) at 1 by auto. rewrite (Nat.div_mod (q / M) N) at 1 by auto. lia. }
  assert (A1 : q mod M < M) by (now apply Nat.mod_upper_bound).
  assert (A2 : (q / M) mod N < N) by (now apply Nat.mod_upper_bound).
  assert (A3 : q / M / N < Z.to_nat p).
  { apply Nat.div_lt_upper_bound; auto. apply Nat.div_lt_upper_bound; auto. }
  rewrite E. destruct (C29_pack3 m n p (spread3 m n p x X) x0) as [H _]. fold M N in H.
  rewrite H by auto. rewrite C29_spread3. fold M N.
  destruct (Nat.ltb_spec (q mod M) M); [|lia]. destruct (Nat.ltb_spec ((q / M) mod N) N); [|lia].
  destruct (Nat.ltb_spec (q / M / N) (Z.to_nat p)); [|lia]. reflexivity.
Qed.
End Props.

(* a 2 x 3 Fortran array holding its positions *)
Example ex_spread : spread2 2 3 (fun q => q) (fun _ _ => 99) 1 2 = 5 /\
  pack2 2 3 (fun i j => 10 * i + j) (fun _ => 99) 3 = 11.
Proof. split; reflexivity. Qed.
Print Assumptions C29_pack_spread3.
