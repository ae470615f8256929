(** * Property theorems: location managers (C01 - C05, C31). *)
From Coq Require Import List Arith Bool NArith Lia.
Import ListNotations.
From Verif Require Import StoreModel StoreSpec StoreProofs StoreWrap.

Section Props.
  Context {V : Type}.
  Variables (vzero : V) (gc : nat -> nat -> bool).
  Notation block h s := (exec b_init (b_step vzero gc) h s).

  (** C01: no request of a well-behaved client hits undefined behaviour ... *)
  Theorem C01_no_failure : forall h s c,
    block h s -> client_ok h c -> b_step vzero gc s c <> None.
  Proof. exact (block_progress vzero gc). Qed.

  (** ... the live locations are pairwise distinct, inside the allocated store ... *)
  Theorem C01_live_distinct : forall h s, block h s -> NoDup (live h).
  Proof. exact (block_nodup vzero gc). Qed.

  (** ... and a new location differs from all live ones and lies in the store. *)
  Theorem C01_fresh : forall h s l,
    block ((CNext, OLoc l) :: h) s -> ~ In l (live h) /\ l < length (b_store s).
  Proof.
    intros h s l X. destruct (block_fresh vzero gc _ _ _ X) as [A B]. split; [exact A|].
    destruct (exec_inv vzero gc _ _ X) as [I _]. rewrite (inv_len _ _ I). exact B.
  Qed.

  (** C02: after ensureContiguousLocations(n) the next n locations are consecutive. *)
  Theorem C02_contiguous : forall h s n s1 o,
    block h s -> b_step vzero gc s (CEnsure n) = Some (s1, o) ->
    exists a s2, nexts (b_step vzero gc) n s1 = Some (s2, map OLoc (seq a n)).
  Proof. exact (block_contiguous vzero gc). Qed.

  (** C03: a read returns the last value written since construction. *)
  Theorem C03_read_last_write : forall h s l o,
    block ((CRead l, o) :: h) s ->
    forall w, last_written h l = Some w -> o = OVal w.
  Proof. exact (block_read vzero gc). Qed.

  (** C04: exact count, and live + free locations are exactly [0, capacity). *)
  Theorem C04_count : forall h s, block h s -> b_fill s = length (live h) /\ b_fill s <= b_max s.
  Proof. exact (block_count vzero gc). Qed.

  Theorem C04_no_leak : forall h s x, block h s ->
    (x < b_max s <->
     In x (live h) \/ exists b, In b (b_free s) /\ fst b <= x < fst b + snd b) /\
    ~ (In x (live h) /\ exists b, In b (b_free s) /\ fst b <= x < fst b + snd b).
  Proof.
    intros h s x X. destruct (exec_inv vzero gc _ _ X) as [I _].
    assert (L : forall y, In y (locs (b_free s)) <->
        exists b, In b (b_free s) /\ fst b <= y < fst b + snd b).
    { intros y. unfold locs. rewrite in_flat_map. split; intros (b & H1 & H2); exists b.
      - unfold blocs in H2. apply in_seq in H2. auto.
      - split; [exact H1|]. apply in_seq. exact H2. }
    split.
    - rewrite <- L, <- in_app_iff. split.
      + intros H. eapply Permutation.Permutation_in.
        * apply Permutation.Permutation_sym, (inv_part _ _ I).
        * apply in_seq. split; [apply Nat.le_0_l|exact H].
      + intros H. assert (In x (seq 0 (b_max s))) as K.
        { eapply Permutation.Permutation_in; [apply (inv_part _ _ I)|exact H]. }
        apply in_seq in K. apply K.
    - rewrite <- L. intros [A B]. pose proof (inv_nodup _ _ I) as ND.
      apply in_split in A. destruct A as (p & q & A). rewrite A, <- app_assoc in ND. cbn in ND.
      apply NoDup_remove_2 in ND. apply ND. rewrite app_assoc. apply in_or_app. right. exact B.
  Qed.

  (** C05: singleton manager *)
  Variables (vnan vjunk : V).
  Notation single h s := (exec l_init (l_step vnan vjunk) h s).

  Theorem C05_no_failure : forall h s c,
    single h s -> client_ok h c -> l_step vnan vjunk s c <> None.
  Proof. exact (single_progress vnan vjunk). Qed.
  Theorem C05_live_distinct : forall h s, single h s -> NoDup (live h).
  Proof. exact (single_nodup vnan vjunk). Qed.
  Theorem C05_range : forall h s l, single h s -> In l (live h) -> 0 < l < l_max s.
  Proof. exact (single_range vnan vjunk). Qed.
  Theorem C05_read_last_write : forall h s l o,
    single ((CRead l, o) :: h) s ->
    forall w, last_written h l = Some w -> o = OVal w.
  Proof. exact (single_read vnan vjunk). Qed.
  Theorem C05_count : forall h s, single h s -> l_fill s = length (live h).
  Proof. exact (single_count vnan vjunk). Qed.
  Theorem C05_block_request_rejected : forall s n,
    l_step vnan vjunk s (CEnsure n) = Some (s, OError).
  Proof. reflexivity. Qed.
End Props.

(** C31 (a request for too many locations is answered by the documented error)
    is false of the code: the check is dead, and on a fresh store a request for
    more than 2^63 locations leaves the growth loop running for ever. *)
Theorem C31_too_many_locations_refuted :
  (forall m, (m < W)%N -> wcheck m = false) /\
  (forall mg, (2 ^ 63 < mg)%N -> (mg < W)%N ->
     forall k, wcond (witer k (wstart 0)) 0 mg = true).
Proof. split; [exact wcheck_dead|exact wrap_diverges]. Qed.

(** C31, what is served: on a store of any size the block manager can have, in
    64-bit arithmetic, a request ends with a store of legal size that has room
    for it, at least doubles the store and is the smallest such doubling -
    exactly when old size + request do not exceed 2^63 and the store is not
    already at 2^63.  This size is the one C01-C05 reason with. *)
Theorem C31_fitting_request_served : forall old mg : nat,
  store_size (N.of_nat old) -> N.of_nat old <> (2 ^ 63)%N ->
  (N.of_nat old + N.of_nat mg <= 2 ^ 63)%N ->
  grows (N.of_nat old) (N.of_nat mg) (N.of_nat (new_max old mg)) /\
  store_size (N.of_nat (new_max old mg)) /\
  old < new_max old mg /\ mg <= new_max old mg - old /\
  (new_max old mg = Nat.max 4 (2 * old) \/ new_max old mg / 2 < old + mg).
Proof.
  intros old mg Sz NB F. pose proof (new_max_machine old mg Sz NB F) as G.
  split; [exact G|].
  destruct (grows_fits _ _ Sz F NB) as (m & G' & Sm & _ & _ & _ & _ & Min).
  rewrite <- (grows_unique _ _ _ _ G G') in *. split; [exact Sm|].
  split; [apply new_max_gt|]. split; [apply new_max_enough|].
  destruct Min as [M|M]; [left; lia|right].
  change 2%N with (N.of_nat 2) in M. rewrite <- Nat2N.inj_div in M. lia.
Qed.

(** ... and what happens to every other request: if the growth ends at all, the
    store has size 0 afterwards; no error is reported. *)
Theorem C31_other_requests : forall old mg m : N,
  store_size old -> (2 ^ 63 < old + mg)%N \/ old = (2 ^ 63)%N -> (mg < W)%N ->
  grows old mg m -> m = 0%N /\ old <> 0%N.
Proof. intros old mg m Sz B Hm G. exact (grows_too_big old mg Sz B Hm m G). Qed.

Lemma C31_nontrivial :
  (exists m, grows 8 21 m /\ m = 32%N) /\ (exists m, grows 8 (2 ^ 63) m /\ m = 0%N).
Proof.
  split.
  - exists 32%N. split; [|reflexivity]. exists 1. split; [reflexivity|]. right.
    split; [reflexivity|]. split; [reflexivity|]. intros [|i] Hi; [reflexivity|lia].
  - exists 0%N. split; [|reflexivity]. exists 60. split; [vm_compute; reflexivity|]. right.
    split; [reflexivity|]. split; [reflexivity|]. intros i Hi.
    do 60 (destruct i as [|i]; [vm_compute; reflexivity|]). lia.
Qed.

(** ** Non-vacuity: a history with two constructions, a write, a destruction, a
    contiguous request that triggers consolidation, and a read. *)
Definition run_b (cs : list (cmd nat)) :=
  fold_left (fun a c => match a with
     | Some (s, h) => match b_step 0 (fun _ _ => true) s c with
                      | Some (s', o) => Some (s', (c, o) :: h) | None => None end
     | None => None end) cs (Some (b_init, [])).

Example history_b :
  option_map snd (run_b [CNext; CNext; CWrite 1 7; CFree 0; CEnsure 6; CNext; CRead 1]) =
  Some [(CRead 1, OVal 7); (CNext, OLoc 2); (CEnsure 6, OUnit); (CFree 0, OUnit);
        (CWrite 1 7, OUnit); (CNext, OLoc 1); (CNext, OLoc 0)].
Proof. reflexivity. Qed.

Example history_b_exec :
  exists s, exec b_init (b_step 0 (fun _ _ => true))
    [(CRead 1, OVal 7); (CNext, OLoc 2); (CEnsure 6, OUnit); (CFree 0, OUnit);
        (CWrite 1 7, OUnit); (CNext, OLoc 1); (CNext, OLoc 0)] s.
Proof.
  eexists.
  repeat eapply exec_cons. apply exec_nil. all: try reflexivity. all: cbn; auto.
Qed.

Example history_l_exec :
  exists s, exec l_init (l_step 0 0)
    [(CRead 2, OVal 7); (CNext, OLoc 1); (CFree 1, OUnit);
        (CWrite 2 7, OUnit); (CNext, OLoc 2); (CNext, OLoc 1)] s.
Proof.
  eexists.
  repeat eapply exec_cons. apply exec_nil. all: try reflexivity. all: cbn; auto.
Qed.

Print Assumptions C01_no_failure.
Print Assumptions C01_live_distinct.
Print Assumptions C01_fresh.
Print Assumptions C02_contiguous.
Print Assumptions C03_read_last_write.
Print Assumptions C04_count.
Print Assumptions C04_no_leak.
Print Assumptions C05_no_failure.
Print Assumptions C05_live_distinct.
Print Assumptions C05_range.
Print Assumptions C05_read_last_write.
Print Assumptions C05_count.
Print Assumptions C31_too_many_locations_refuted.
