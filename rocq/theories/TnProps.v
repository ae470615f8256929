(** C22: the positions of derivatives in a compressed tensor. *)
From Coq Require Import List Arith Bool Lia Permutation.
From Verif Require Import TnModel TnSpec TnProofs TnEnum.
Import ListNotations.

Ltac ex := repeat match goal with
  | |- _ /\ _ => split
  | |- derivative _ _ _ => split; [reflexivity|split; [cbn; lia | repeat constructor; lia]]
  | |- _ = _ => vm_compute; reflexivity
  end.

(** binomi computes binomial coefficients *)
Theorem C22_binomi : forall n k, binomi n k = C n k.
Proof. exact binomi_C. Qed.

(** tensor_address is a bijection between the derivatives of degree at most d in p
    variables and the positions 0 .. binomi(p+d,d)-1 *)
Theorem C22_bijection : forall p d,
  (forall j, derivative p d j -> tensor_address d (array j) < binomi (p + d) d) /\
  (forall j j', derivative p d j -> derivative p d j' ->
     tensor_address d (array j) = tensor_address d (array j') -> j = j') /\
  (forall a, a < binomi (p + d) d ->
     exists j, derivative p d j /\ tensor_address d (array j) = a).
Proof.
  intros p d. assert (forall j, derivative p d j -> tensor_address d (array j) = rank j) as E.
  { intros j (L & N & _). now apply address_rank. }
  rewrite binomi_C. split; [|split].
  - intros j H. rewrite (E j H). now apply rank_bound.
  - intros j j' H H'. rewrite (E j H), (E j' H'). now apply (rank_inj p d).
  - intros a A. destruct (rank_surj d p a A) as (j & D & R). exists j. split; [exact D|].
    now rewrite (E j D).
Qed.
(* with derivative (3 4 [3;2;2;0]) etc. *)
Example C22_bijection_ex :
  derivative 3 4 [3; 2; 2; 0] /\ tensor_address 4 (array [3; 2; 2; 0]) = 22 /\
  derivative 3 4 [2; 2; 2; 2] /\ tensor_address 4 (array [2; 2; 2; 2]) = 14 /\
  derivative 3 4 [3; 3; 3; 3] /\ tensor_address 4 (array [3; 3; 3; 3]) = 34 /\ binomi 7 4 = 35.
Proof. ex. Qed.

(** the function value is at position 0 and, in the quadratic case, the derivative
    with respect to z_k and z_j, j <= k, at position k(k+1)/2 + j (manual) *)
Theorem C22_quadratic : forall k j, j <= k -> tensor_address 2 (array [k; j]) = k * (k + 1) / 2 + j.
Proof.
  intros k j H. rewrite address_rank; [|reflexivity|split; [assumption|exact I]].
  cbn [rank length]. rewrite !Nat.add_0_r.
  assert (forall m, C m 1 = m) as E by (clear; induction m; [reflexivity|]; rewrite C_S, C_0; lia).
  rewrite E. f_equal.
  pose proof (C_absorb k 1) as A. rewrite E in A. replace (k + 1) with (S k) by lia.
  apply Nat.div_unique_exact; [lia|]. rewrite Nat.mul_comm. lia.
Qed.
Theorem C22_value : forall d, tensor_address d (array (repeat 0 d)) = 0.
Proof.
  intros d. rewrite address_rank; [|apply repeat_length|apply (derivative_zeros 0)].
  assert (forall n, rank (repeat 0 n) = 0) as Z.
  { clear. induction n; [reflexivity|]. cbn [repeat rank]. rewrite IHn, repeat_length.
    rewrite C_over by lia. reflexivity. }
  apply Z.
Qed.

(** tensorsetup: t[j1]...[jd] is the same double as tensorig[tensor_address(d,j)], the
    structure covers exactly binomi(p+d,d) doubles *)
Theorem C22_tensorentry : forall p d j, 1 <= d -> derivative p d j ->
  let '(t, glob, _) := tensorpoint d p 0 0 in
  deref t j = Some (tensor_address d (array j)) /\ glob = binomi (p + d) d.
Proof.
  intros p d j D J. destruct d as [|d]; [lia|].
  pose proof (tensorpoint_ok d p 0 0) as H. destruct (tensorpoint (S d) p 0 0) as [[t g] nx].
  destruct H as [E R]. rewrite (R j J), binomi_C, E. split; [|reflexivity].
  destruct J as (L & N & _). now rewrite address_rank.
Qed.
Example C22_tensorentry_ex : derivative 3 4 [3; 2; 2; 0] /\
  deref (fst (fst (tensorpoint 4 3 0 0))) [3; 2; 2; 0] = Some 22.
Proof. ex. Qed.

(** freetensor releases every block that tensorsetup obtained for an entry, once, and
    nothing else, for d >= 2 ... *)
Theorem C22_freetensor : forall p d, 2 <= d ->
  let '(t, _, next) := tensorpoint d p 0 0 in
  NoDup (freetensor d t) /\
  forall b, In b (freetensor d t) <-> exists k, b = Some k /\ k < next.
Proof.
  intros p d D. destruct d as [|[|d]]; try lia.
  pose proof (tensorpoint_blocks (S d) p 0 0) as H.
  destruct (tensorpoint (S (S d)) p 0 0) as [[t g] nx]. destruct H as (H1 & _ & U & I).
  pose proof (freetensor_ok d t H1) as P. split.
  - apply (Permutation_NoDup (Permutation_sym P)). apply FinFun.Injective_map_NoDup; [|exact U].
    intros x y E. congruence.
  - intros b. split.
    + intros J. apply (Permutation_in _ P) in J. apply in_map_iff in J. destruct J as (k & <- & J).
      exists k. split; [reflexivity|]. apply I in J. lia.
    + intros (k & -> & K). apply (Permutation_in _ (Permutation_sym P)). apply in_map.
      apply I. lia.
Qed.
(** ... but for d = 1 it calls free on the caller's own array of doubles *)
Theorem C22_freetensor_refuted : forall p,
  let '(t, _, _) := tensorpoint 1 p 0 0 in freetensor 1 t = [None].
Proof. reflexivity. Qed.

(** The manual gives (1,1,2), (1,2,1) and (2,1,1) as equivalent ways to ask for the
    derivative d^3/dz_1^2 dz_2; only (2,1,1) works: the other two name the entries of
    d/dz_2 and d^2/dz_1 dz_2. *)
Theorem C22_permutation_refuted :
  tensor_address 3 (array [2; 1; 1]) = 6 /\
  tensor_address 3 (array [1; 2; 1]) = 5 /\ tensor_address 3 (array [2; 1; 0]) = 5 /\
  tensor_address 3 (array [1; 1; 2]) = 4 /\ tensor_address 3 (array [2; 0; 0]) = 4.
Proof. ex. Qed.

(** tensor_value(d, m, y, tensor, multi) returns, for a legal non-increasing index, the
    wrong entry whenever two different variables occur: its own sort leaves the
    variables in increasing order, tensor_address then drops all but the largest.  It
    also overwrites the caller's index. *)
Theorem C22_tensor_value_refuted : forall a b, b < a -> 0 < b ->
  let (pos, multi) := tensor_value 2 (array [a; b]) in
  pos = tensor_address 2 (array [a; 0]) /\ pos <> tensor_address 2 (array [a; b]) /\
  multi 0 = 0 /\ multi 1 = 0.
Proof.
  intros a b H H0. unfold tensor_value.
  assert (largest 2 (array [a; b]) = a) as E.
  { apply largest_spec.
    - intros [|[|]] J; cbn; lia.
    - right. exists 0. split; [lia|reflexivity]. }
  set (my' := put (array [a; b]) 0 0).
  assert (largest 2 my' = b) as E1.
  { apply largest_spec.
    - intros [|[|]] J; cbn; lia.
    - right. exists 1. split; [lia|reflexivity]. }
  assert (fold_left (pick 2) (seq 0 2) (array [a; b], largest 2 (array [a; b]), 2, fun _ => 0)
     = (put my' 1 0, largest 2 (put my' 1 0), 0, put (put (fun _ => 0) 1 a) 0 b)) as F.
  { cbn [seq fold_left]. rewrite E. unfold pick at 2. cbn [array nth]. rewrite Nat.eqb_refl.
    fold my'. rewrite E1. unfold pick. change (my' 1) with b. rewrite Nat.eqb_refl. reflexivity. }
  rewrite F. set (im := put (put (fun _ => 0) 1 a) 0 b).
  assert (tensor_address 2 im = tensor_address 2 (array [a; 0])) as G.
  { assert (S1 : forall i, i < 2 -> sorted_multi 2 im i = sorted_multi 2 (array [a; 0]) i).
    { assert (largest 2 im = a) as L.
      { apply largest_spec.
        - intros [|[|]] J; cbn; lia.
        - right. exists 1. split; [lia|reflexivity]. }
      intros i I.
      assert (nonincreasing [a; 0]) as NI by (split; [lia|exact Logic.I]).
      rewrite (sorted_multi_rev 2 [a; 0] eq_refl NI i I).
      unfold sorted_multi. cbn [seq fold_left]. rewrite L. unfold pick at 2. change (im 0) with b.
      destruct (Nat.eqb_spec b a); [lia|].
      unfold pick. change (im 1) with a. rewrite Nat.eqb_refl. cbn [snd].
      unfold put. destruct i as [|[|]]; cbn; lia. }
    unfold tensor_address. cbn [seq fold_left]. rewrite !S1 by lia. reflexivity. }
  split; [exact G|]. split; [|split; reflexivity].
  rewrite G. intros Q.
  assert ([a; 0] = [a; b]) as Z.
  { apply (proj1 (proj2 (C22_bijection a 2))); try assumption; repeat split; repeat constructor; lia. }
  injection Z as Z. lia.
Qed.

(** coeff stores a coefficient for the exponents im at the position where the user
    looks for the derivative with these exponents *)
Theorem C22_coeff_address : forall p d j, derivative p d j ->
  coeff_address p d (length j - count_occ Nat.eq_dec j 0)
                (fun u => count_occ Nat.eq_dec j (u + 1)) = tensor_address d (array j).
Proof.
  intros p d j D. rewrite address_rank by apply D. now apply coeff_address_ok.
Qed.
Example C22_coeff_address_ex : derivative 3 4 [3; 2; 2; 0] /\
  coeff_address 3 4 3 (fun u => count_occ Nat.eq_dec [3; 2; 2; 0] (u + 1)) = 22.
Proof. ex. Qed.

(** coeff and tensor_eval enumerate the same exponent vectors in the same order: all
    vectors of p nonnegative numbers with sum d, each exactly once *)
Theorem C22_directions : forall p d, 1 <= p -> 1 <= d ->
  exists L : list (list nat),
    length L = binomi (p + d - 1) d /\ NoDup L /\
    (forall v, In v L <-> length v = p /\ list_sum v = d) /\
    forall k v, nth_error L k = Some v -> forall i, i < p ->
      (* jm in coeff after k turns *)
      iter k (next_jm p) (array (d :: repeat 0 (p - 1))) i = nth i v 0 /\
      (* the argument of convert in tensor_eval in turn k *)
      convert d (if d =? 1 then fun _ => k + 1 else iter (S k) (next_it p d) (start d)) i
        = nth i v 0.
Proof.
  intros p d P D. exists (vectors p d). split; [|split; [|split]].
  - destruct p; [lia|]. rewrite vectors_length, binomi_C. f_equal. lia.
  - apply vectors_nodup.
  - intros v. apply vectors_in.
  - intros k v E i I. split; [now apply coeff_directions|].
    destruct (Nat.eqb_spec d 1) as [->|].
    + now apply (eval_exponents_1 p).
    + apply eval_exponents; try assumption; lia.
Qed.
