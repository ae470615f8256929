(** * Proofs about the location managers of StoreModel.v *)
From Coq Require Import List Arith Lia Bool Permutation.
Import ListNotations.
From Verif Require Import StoreModel StoreSpec.

(** ** growth computation *)
Lemma grow_loop_ge : forall fuel m old mg, m <= grow_loop fuel m old mg.
Proof.
  induction fuel as [|f IH]; intros m old mg; cbn [grow_loop]; [lia|].
  destruct (m - old <? mg); [|lia]. specialize (IH (2*m) old mg). lia.
Qed.

Lemma grow_loop_enough : forall fuel m old mg,
  old < m -> mg <= m - old + fuel -> mg <= grow_loop (S fuel) m old mg - old.
Proof.
  induction fuel as [|f IH]; intros m old mg Hm Hf.
  - cbn [grow_loop]. destruct (Nat.ltb_spec (m - old) mg); lia.
  - cbn [grow_loop]. destruct (Nat.ltb_spec (m - old) mg) as [H|H]; [|lia].
    apply IH; lia.
Qed.

Lemma new_max_gt old mg : old < new_max old mg.
Proof.
  unfold new_max. destruct (Nat.eqb_spec old 0) as [->|H].
  - pose proof (grow_loop_ge (S mg) initialSize 0 mg). unfold initialSize in *. lia.
  - pose proof (grow_loop_ge (S mg) (2*old) old mg). lia.
Qed.

Lemma new_max_enough old mg : mg <= new_max old mg - old.
Proof.
  unfold new_max. destruct (Nat.eqb_spec old 0) as [->|H];
    apply grow_loop_enough; unfold initialSize; lia.
Qed.

(** ** free lists as sets of locations *)
Definition blocs (b : fblock) : list nat := seq (fst b) (snd b).
Definition locs (l : list fblock) : list nat := flat_map blocs l.

Lemma locs_app a b : locs (a ++ b) = locs a ++ locs b.
Proof. apply flat_map_app. Qed.

Lemma take_tail_spec old l b r :
  take_tail old l = Some (b, r) -> fst b + snd b = old /\ Permutation l (b :: r).
Proof.
  revert b r; induction l as [|[n s] l IH]; intros b r H; cbn in H; [discriminate|].
  destruct (Nat.eqb_spec (n + s) old) as [E|E].
  - inversion H; subst. split; [reflexivity|]. apply Permutation_refl.
  - destruct (take_tail old l) as [[c r']|] eqn:T; [|discriminate].
    inversion H; subst. destruct (IH _ _ eq_refl) as [H1 H2]. split; [exact H1|].
    eapply perm_trans; [apply perm_skip, H2|]. apply perm_swap.
Qed.

Lemma locs_perm a b : Permutation a b -> Permutation (locs a) (locs b).
Proof. intros H. apply Permutation_flat_map, H. Qed.

Lemma locs_filter l : locs (filter (fun b => negb (snd b =? 0)) l) = locs l.
Proof.
  induction l as [|[n s] l IH]; [reflexivity|]. cbn.
  destruct s; cbn; [exact IH|]. unfold locs in IH. rewrite IH. reflexivity.
Qed.

Definition pos (b : fblock) : Prop := 0 < snd b.

Lemma filter_pos l : Forall pos (filter (fun b => negb (snd b =? 0)) l).
Proof.
  apply Forall_forall. intros b H. apply filter_In in H. destruct H as [_ H].
  unfold pos. destruct (snd b); cbn in H; [discriminate|lia].
Qed.

Section Blk.
  Context {V : Type} (vzero : V) (gc : nat -> nat -> bool).
  Notation bst := (bstate V).
  Notation bgrow := (b_grow vzero).
  Notation bnext := (b_next vzero).
  Notation bensure := (b_ensure vzero gc).
  Notation bstep := (b_step vzero gc).

  (** the invariant: live and free locations partition [0,maxsize) *)
  Record Inv (lv : list nat) (s : bst) : Prop := {
    inv_part : Permutation (lv ++ locs (b_free s)) (seq 0 (b_max s));
    inv_fill : b_fill s = length lv;
    inv_len  : length (b_store s) = b_max s;
    inv_pos  : Forall pos (b_free s);
    inv_ne   : b_max s <> 0 -> b_free s <> []
  }.

  Lemma inv_init : Inv [] b_init.
  Proof. constructor; cbn; auto. Qed.

  (* weak invariant accepted by grow: zero sized blocks allowed, list may be empty *)
  Lemma grow_part lv (s : bst) mg :
    Permutation (lv ++ locs (b_free s)) (seq 0 (b_max s)) ->
    Permutation (lv ++ locs (b_free (bgrow mg s))) (seq 0 (b_max (bgrow mg s))).
  Proof.
    intros P. unfold b_grow; cbn [b_free b_max]. rewrite locs_filter.
    set (m := new_max (b_max s) mg). set (old := b_max s) in *.
    pose proof (new_max_gt old mg) as Hm. fold m in Hm.
    assert (S0 : seq 0 m = seq 0 old ++ seq old (m - old)).
    { replace m with (old + (m - old)) at 1 by lia. rewrite seq_app. reflexivity. }
    rewrite S0. destruct (take_tail old (b_free s)) as [[[n sz] r]|] eqn:T.
    - apply take_tail_spec in T. destruct T as [E PT]. cbn in E.
      assert (X : Permutation (locs ((n, sz + (m - old)) :: r)) (locs (b_free s) ++ seq old (m - old))).
      { eapply perm_trans; [|apply Permutation_app_tail, Permutation_sym, locs_perm, PT].
        cbn [locs flat_map]. unfold blocs; cbn [fst snd]. rewrite seq_app, E.
        change (flat_map (fun b : fblock => seq (fst b) (snd b)) r) with (locs r).
        rewrite <- !app_assoc. apply Permutation_app_head. apply Permutation_app_comm. }
      eapply perm_trans; [apply Permutation_app_head, X|].
      rewrite app_assoc. apply Permutation_app_tail, P.
    - cbn [locs flat_map]. unfold blocs; cbn [fst snd].
      change (flat_map (fun b : fblock => seq (fst b) (snd b)) (b_free s)) with (locs (b_free s)).
      eapply perm_trans; [apply Permutation_app_head, Permutation_app_comm|].
      rewrite app_assoc. apply Permutation_app_tail, P.
  Qed.

  Lemma grow_front (s : bst) mg :
    exists n sz r, b_free (bgrow mg s) = (n, sz) :: r /\ mg <= sz /\ 0 < sz.
  Proof.
    unfold b_grow; cbn [b_free].
    pose proof (new_max_gt (b_max s) mg) as H1. pose proof (new_max_enough (b_max s) mg) as H2.
    destruct (take_tail (b_max s) (b_free s)) as [[[n sz] r]|]; cbn [filter snd].
    - replace (sz + (new_max (b_max s) mg - b_max s) =? 0) with false
        by (symmetry; apply Nat.eqb_neq; lia). cbn [negb].
      do 3 eexists. split; [reflexivity|]. lia.
    - replace (new_max (b_max s) mg - b_max s =? 0) with false
        by (symmetry; apply Nat.eqb_neq; lia). cbn [negb].
      do 3 eexists. split; [reflexivity|]. lia.
  Qed.

  Lemma grow_inv lv (s : bst) mg :
    Permutation (lv ++ locs (b_free s)) (seq 0 (b_max s)) ->
    b_fill s = length lv -> length (b_store s) = b_max s ->
    Inv lv (bgrow mg s).
  Proof.
    intros P F L. constructor.
    - apply grow_part, P.
    - exact F.
    - unfold b_grow; cbn [b_store b_max]. rewrite app_length, repeat_length, L.
      pose proof (new_max_gt (b_max s) mg). lia.
    - unfold b_grow; cbn [b_free]. apply filter_pos.
    - intros _. destruct (grow_front s mg) as (n & sz & r & E & _). rewrite E. discriminate.
  Qed.

  (** reading below the old size is unaffected by growth *)
  Lemma grow_store (s : bst) mg i :
    i < length (b_store s) -> nth_error (b_store (bgrow mg s)) i = nth_error (b_store s) i.
  Proof. intros H. unfold b_grow; cbn. apply nth_error_app1, H. Qed.

  Lemma perm_in_lt lv (s : bst) l : Inv lv s -> In l lv -> l < b_max s.
  Proof.
    intros I Hl. assert (In l (seq 0 (b_max s))) as H.
    { eapply Permutation_in; [apply (inv_part _ _ I)|]. apply in_or_app; left; exact Hl. }
    apply in_seq in H. lia.
  Qed.

  Lemma inv_nodup lv (s : bst) : Inv lv s -> NoDup (lv ++ locs (b_free s)).
  Proof.
    intros I. eapply Permutation_NoDup; [apply Permutation_sym, (inv_part _ _ I)|]. apply seq_NoDup.
  Qed.

  (** *** next_loc *)
  Lemma next_ok lv (s : bst) :
    Inv lv s ->
    exists s' l, bnext s = Some (s', l) /\ Inv (l :: lv) s' /\ ~ In l lv /\
      (forall i, i < length (b_store s) -> nth_error (b_store s') i = nth_error (b_store s) i) /\
      (forall n sz r, b_free s = (n, sz) :: r -> l = n /\
         (1 < sz -> exists r', b_free s' = (S n, sz - 1) :: r')).
  Proof.
    intros I.
    set (s1 := match b_free s with [] => bgrow 0 s | _ => s end).
    assert (I1 : Inv lv s1).
    { unfold s1. destruct (b_free s) eqn:E; [|exact I].
      apply grow_inv; [rewrite E; rewrite <- E at 1; apply I | apply I | apply I]. }
    assert (NE : exists n sz r, b_free s1 = (n, sz) :: r /\ 0 < sz).
    { unfold s1. destruct (b_free s) as [|[n sz] r] eqn:E.
      - destruct (grow_front s 0) as (n & sz & r & H & _ & P). eauto.
      - exists n, sz, r. split; [exact E|]. pose proof (inv_pos _ _ I) as P. rewrite E in P.
        inversion P; subst. exact H1. }
    assert (ST : forall i, i < length (b_store s) -> nth_error (b_store s1) i = nth_error (b_store s) i).
    { unfold s1. destruct (b_free s); [|reflexivity]. intros; apply grow_store; assumption. }
    assert (LS : length (b_store s) <= length (b_store s1)).
    { unfold s1. destruct (b_free s); [|lia]. unfold b_grow; cbn [b_store b_max]. rewrite app_length; lia. }
    assert (FE : forall n sz r, b_free s = (n, sz) :: r -> s1 = s).
    { intros n sz r E. unfold s1. rewrite E. reflexivity. }
    destruct NE as (n & sz & r & E1 & Psz).
    pose proof (inv_part _ _ I1) as P1. rewrite E1 in P1. cbn [locs flat_map] in P1.
    unfold blocs in P1; cbn [fst snd] in P1.
    change (flat_map (fun b : fblock => seq (fst b) (snd b)) r) with (locs r) in P1.
    assert (FR : ~ In n lv).
    { pose proof (inv_nodup _ _ I1) as ND. rewrite E1 in ND. cbn [locs flat_map] in ND.
      unfold blocs in ND; cbn [fst snd] in ND. intros Hn.
      destruct sz as [|sz]; [lia|]. cbn [seq app] in ND.
      apply NoDup_remove_2 in ND. apply ND. apply in_or_app; left; exact Hn. }
    unfold b_next. fold s1. rewrite E1.
    destruct sz as [|[|sz]]; [lia| |].
    - (* size 1 *)
      cbn [seq app] in P1.
      destruct r as [|b r].
      + do 2 eexists. split; [reflexivity|]. cbn [b_store].
        set (s2 := mkB (b_store s1) (b_max s1) (b_fill s1) [(S n, 0)]).
        assert (X : Inv lv (mkB (b_store s1) (b_max s1) (b_fill s1) [])
                    -> True) by auto. clear X.
        assert (G : Permutation ((n :: lv) ++ locs (b_free (bgrow 0 s2))) (seq 0 (b_max (bgrow 0 s2)))).
        { apply grow_part. unfold s2; cbn [b_free b_max]. cbn [locs flat_map app].
          unfold blocs; cbn [fst snd seq app]. rewrite app_nil_r.
          eapply perm_trans; [|exact P1]. cbn. eapply perm_trans; [apply Permutation_cons_append|].
          apply Permutation_refl. }
        split; [|split; [exact FR|split]].
        * constructor; cbn [b_free b_max b_fill b_store].
          -- exact G.
          -- unfold b_grow; cbn. rewrite (inv_fill _ _ I1). reflexivity.
          -- unfold b_grow; cbn [b_store b_max]. rewrite app_length, repeat_length; unfold s2; cbn [b_store b_max]; rewrite (inv_len _ _ I1).
             pose proof (new_max_gt (b_max s1) 0). lia.
          -- unfold b_grow; cbn [b_free]. apply filter_pos.
          -- intros _. destruct (grow_front s2 0) as (? & ? & ? & E & _). rewrite E. discriminate.
        * intros i Hi. rewrite grow_store; [apply ST; exact Hi|]. unfold s2; cbn [b_store]. lia.
        * intros n' sz' r' E. rewrite (FE _ _ _ E) in E1. rewrite E in E1. inversion E1; subst.
          split; [reflexivity|lia].
      + do 2 eexists. split; [reflexivity|]. split; [|split; [exact FR|split]].
        * constructor; cbn [b_free b_max b_fill b_store].
          -- eapply perm_trans; [|exact P1]. cbn [app]. apply Permutation_middle.
          -- rewrite (inv_fill _ _ I1). reflexivity.
          -- apply I1.
          -- pose proof (inv_pos _ _ I1) as P. rewrite E1 in P. inversion P; assumption.
          -- discriminate.
        * exact ST.
        * intros n' sz' r' E. rewrite (FE _ _ _ E) in E1. rewrite E in E1. inversion E1; subst.
          split; [reflexivity|lia].
    - do 2 eexists. split; [reflexivity|]. split; [|split; [exact FR|split]].
      + constructor; cbn [b_free b_max b_fill b_store].
        * eapply perm_trans; [|exact P1]. cbn [locs flat_map]. unfold blocs; cbn [fst snd].
          change (flat_map (fun b : fblock => seq (fst b) (snd b)) r) with (locs r).
          change (seq n (S (S sz))) with (n :: seq (S n) (S sz)). cbn [app].
          apply Permutation_middle.
        * rewrite (inv_fill _ _ I1). reflexivity.
        * apply I1.
        * pose proof (inv_pos _ _ I1) as P. rewrite E1 in P. inversion P; subst.
          constructor; [unfold pos; cbn; lia|assumption].
        * discriminate.
      + exact ST.
      + intros n' sz' r' E. rewrite (FE _ _ _ E) in E1. rewrite E in E1. inversion E1; subst.
        split; [reflexivity|]. intros _. replace (S (S sz) - 1) with (S sz) by lia. exists r; reflexivity.
  Qed.

  (** *** free_loc *)
  Lemma remove_perm l (lv : list nat) :
    NoDup lv -> In l lv -> Permutation lv (l :: remove Nat.eq_dec l lv).
  Proof.
    induction lv as [|x lv IH]; intros ND H; [destruct H|].
    inversion ND; subst. cbn. destruct (Nat.eq_dec l x) as [->|N].
    - rewrite notin_remove by assumption. apply Permutation_refl.
    - destruct H as [->|H]; [congruence|].
      eapply perm_trans; [apply perm_skip, IH; assumption|]. apply perm_swap.
  Qed.

  Lemma NoDup_app_l {A} (a b : list A) : NoDup (a ++ b) -> NoDup a.
  Proof.
    induction a as [|x a IH]; cbn; intros H; [constructor|].
    inversion H; subst. constructor; [|auto]. intros X. apply H2. apply in_or_app; left; exact X.
  Qed.

  Lemma free_ok lv (s : bst) l :
    Inv lv s -> In l lv ->
    exists s', b_freeloc l s = Some s' /\ Inv (remove Nat.eq_dec l lv) s' /\
      b_store s' = b_store s.
  Proof.
    intros I Hl. pose proof (perm_in_lt _ _ _ I Hl) as LT.
    pose proof (NoDup_app_l _ _ (inv_nodup _ _ I)) as ND.
    pose proof (remove_perm l lv ND Hl) as RP.
    unfold b_freeloc. destruct (Nat.ltb_spec l (b_max s)) as [_|?]; [|lia]. cbn [negb].
    destruct (b_free s) as [|[n sz] r] eqn:E.
    { exfalso. apply (inv_ne _ _ I); [lia|exact E]. }
    assert (FL : b_fill s = S (length (remove Nat.eq_dec l lv))).
    { rewrite (inv_fill _ _ I). apply Permutation_length in RP. exact RP. }
    rewrite FL. eexists. split; [reflexivity|]. split; [|reflexivity].
    pose proof (inv_part _ _ I) as P. rewrite E in P. cbn [locs flat_map] in P.
    unfold blocs in P; cbn [fst snd] in P.
    change (flat_map (fun b : fblock => seq (fst b) (snd b)) r) with (locs r) in P.
    pose proof (inv_pos _ _ I) as PP. rewrite E in PP. inversion PP as [|? ? Pn Pr]; subst.
    constructor; cbn [b_free b_max b_fill b_store].
    - eapply perm_trans; [|exact P].
      eapply perm_trans; [|apply Permutation_app_tail, Permutation_sym, RP].
      cbn [app]. eapply perm_trans; [|apply Permutation_sym, Permutation_middle].
      apply Permutation_app_head.
      destruct (Nat.eqb_spec (l + 1) n) as [E1|E1]; cbn [orb].
      + subst n. cbn [locs flat_map]. unfold blocs; cbn [fst snd seq].
        replace (S l) with (l + 1) by lia. apply Permutation_refl.
      + destruct (Nat.eqb_spec (n + sz) l) as [E2|E2].
        * subst l. cbn [locs flat_map]. unfold blocs; cbn [fst snd].
          rewrite seq_S. rewrite <- app_assoc. cbn [app].
          change (flat_map (fun b : fblock => seq (fst b) (snd b)) r) with (locs r).
          apply Permutation_sym, Permutation_middle.
        * cbn [locs flat_map]. unfold blocs; cbn [fst snd seq app].
          apply Permutation_refl.
    - reflexivity.
    - apply I.
    - destruct (Nat.eqb_spec (l + 1) n); cbn [orb].
      + constructor; [unfold pos; cbn; lia|assumption].
      + destruct (Nat.eqb_spec (n + sz) l).
        * constructor; [unfold pos; cbn; lia|assumption].
        * constructor; [unfold pos; cbn; lia|]. constructor; assumption.
    - intros _. destruct ((l + 1 =? n) || (n + sz =? l)); discriminate.
  Qed.

  (** *** consolidateBlocks *)
  Lemma binsert_perm b l : Permutation (binsert b l) (b :: l).
  Proof.
    induction l as [|c l IH]; cbn [binsert]; [apply Permutation_refl|].
    destruct (fst c <? fst b); [|apply Permutation_refl].
    eapply perm_trans; [apply perm_skip, IH|]. apply perm_swap.
  Qed.
  Lemma bsort_perm l : Permutation (bsort l) l.
  Proof.
    induction l as [|b l IH]; cbn; [apply Permutation_refl|].
    eapply perm_trans; [apply binsert_perm|]. apply perm_skip, IH.
  Qed.
  Lemma bmerge_locs l : forall b, locs (bmerge b l) = locs (b :: l).
  Proof.
    induction l as [|c l IH]; intros b; [reflexivity|]. cbn [bmerge].
    destruct (Nat.eqb_spec (fst b + snd b) (fst c)) as [E|E].
    - rewrite IH. cbn [locs flat_map]. unfold blocs; cbn [fst snd].
      rewrite seq_app, E, app_assoc. reflexivity.
    - cbn [locs flat_map]. unfold locs in IH. rewrite IH. reflexivity.
  Qed.
  Lemma bmerge_pos l : forall b, pos b -> Forall pos l -> Forall pos (bmerge b l).
  Proof.
    induction l as [|c l IH]; intros b Hb Hl; cbn [bmerge]; [constructor; auto|].
    inversion Hl; subst. destruct (fst b + snd b =? fst c).
    - apply IH; [unfold pos in *; cbn; lia|assumption].
    - constructor; [assumption|]. apply IH; assumption.
  Qed.
  Lemma bmerge_ne l b : bmerge b l <> [].
  Proof.
    revert b; induction l as [|c l IH]; intros b; cbn; [discriminate|].
    destruct (fst b + snd b =? fst c); [apply IH|discriminate].
  Qed.

  Lemma consolidate_ok l : l <> [] -> Forall pos l ->
    exists l', consolidate l = Some l' /\ Permutation (locs l') (locs l) /\
      Forall pos l' /\ l' <> [].
  Proof.
    intros NE P. unfold consolidate.
    pose proof (bsort_perm l) as BP. destruct (bsort l) as [|b r] eqn:E.
    - apply Permutation_nil in BP. congruence.
    - eexists. split; [reflexivity|]. split; [|split].
      + rewrite bmerge_locs. apply locs_perm, BP.
      + assert (Forall pos (b :: r)) as F.
        { eapply Permutation_Forall; [apply Permutation_sym, BP|exact P]. }
        inversion F; subst. apply bmerge_pos; assumption.
      + apply bmerge_ne.
  Qed.

  Lemma take_big_spec n l b r :
    take_big n l = Some (b, r) -> n <= snd b /\ Permutation l (b :: r).
  Proof.
    revert b r; induction l as [|c l IH]; intros b r H; cbn in H; [discriminate|].
    destruct (Nat.leb_spec n (snd c)) as [E|E].
    - inversion H; subst. split; [assumption|apply Permutation_refl].
    - destruct (take_big n l) as [[d r']|] eqn:T; [|discriminate]. inversion H; subst.
      destruct (IH _ _ eq_refl) as [H1 H2]. split; [exact H1|].
      eapply perm_trans; [apply perm_skip, H2|]. apply perm_swap.
  Qed.

  Lemma ensure_ok lv (s : bst) n :
    Inv lv s ->
    exists s', bensure n s = Some s' /\ Inv lv s' /\
      (forall i, i < length (b_store s) -> nth_error (b_store s') i = nth_error (b_store s) i) /\
      (exists a sz r, b_free s' = (a, sz) :: r /\ n <= sz).
  Proof.
    intros I.
    assert (G : forall l, Permutation (locs l) (locs (b_free s)) ->
       let s' := bgrow n (mkB (b_store s) (b_max s) (b_fill s) l) in
       Inv lv s' /\
       (forall i, i < length (b_store s) -> nth_error (b_store s') i = nth_error (b_store s) i) /\
       (exists a sz r, b_free s' = (a, sz) :: r /\ n <= sz)).
    { intros l Pl s'. split; [|split].
      - apply grow_inv; cbn.
        + eapply perm_trans; [apply Permutation_app_head, Pl|]. apply I.
        + apply I.
        + apply I.
      - intros i Hi. unfold s'. rewrite grow_store; [reflexivity|exact Hi].
      - destruct (grow_front (mkB (b_store s) (b_max s) (b_fill s) l) n)
          as (a & sz & r & E & H & _). exists a, sz, r. auto. }
    assert (G0 := G (b_free s) (Permutation_refl _)).
    assert (EQ : mkB (b_store s) (b_max s) (b_fill s) (b_free s) = s) by (destruct s; reflexivity).
    rewrite EQ in G0. cbv zeta in G0.
    unfold b_ensure. destruct (Nat.ltb_spec n (b_max s - b_fill s)) as [LT|GE].
    2:{ eexists; split; [reflexivity|]. exact G0. }
    destruct (b_free s) as [|b r] eqn:E.
    { exfalso. apply (inv_ne _ _ I); [lia|exact E]. }
    destruct (Nat.leb_spec n (snd b)) as [Hb|Hb].
    { exists s. split; [reflexivity|]. split; [exact I|]. split; [reflexivity|].
      exists (fst b), (snd b), r. rewrite E. split; [destruct b; reflexivity|exact Hb]. }
    destruct (gc (b_max s) (b_fill s)).
    2:{ eexists; split; [reflexivity|]. exact G0. }
    destruct (consolidate_ok (b :: r)) as (l' & C & Pl & Fl & Nl).
    { discriminate. }
    { rewrite <- E. apply I. }
    rewrite C. destruct (take_big n l') as [[c r']|] eqn:T.
    - apply take_big_spec in T. destruct T as [Hc Pc].
      eexists. split; [reflexivity|]. split; [|split].
      + constructor; cbn.
        * eapply perm_trans; [|apply (inv_part _ _ I)].
          apply Permutation_app_head. rewrite E. eapply perm_trans; [|exact Pl].
          change (blocs c ++ flat_map blocs r') with (locs (c :: r')).
          apply locs_perm, Permutation_sym, Pc.
        * apply I.
        * apply I.
        * eapply Permutation_Forall; [exact Pc|exact Fl].
        * discriminate.
      + reflexivity.
      + exists (fst c), (snd c), r'. split; [destruct c; reflexivity|exact Hc].
    - eexists; split; [reflexivity|]. apply G. exact Pl.
  Qed.

  (** *** memory *)
  Lemma upd_length (l : list V) i v : length (upd l i v) = length l.
  Proof. revert i; induction l; destruct i; cbn; auto. Qed.
  Lemma upd_same (l : list V) i v : i < length l -> nth_error (upd l i v) i = Some v.
  Proof. revert i; induction l; destruct i; cbn; intros; try lia; auto. apply IHl; lia. Qed.
  Lemma upd_other (l : list V) i j v : i <> j -> nth_error (upd l i v) j = nth_error l j.
  Proof.
    revert i j; induction l; destruct i, j; cbn; intros; try congruence; auto.
  Qed.

  (** *** all histories *)
  Notation bexec := (exec b_init bstep).

  Definition Mem (h : history) (s : bst) : Prop :=
    forall l v, In l (live h) -> last_written h l = Some v -> nth_error (b_store s) l = Some v.

  Lemma step_ok h s c :
    Inv (live h) s -> Mem h s -> client_ok h c ->
    exists s' o, bstep s c = Some (s', o) /\ Inv (live ((c, o) :: h)) s' /\
                 Mem ((c, o) :: h) s'.
  Proof.
    intros I M C. destruct c as [|l|n|l v|l]; cbn [b_step client_ok] in *.
    - destruct (next_ok _ _ I) as (s' & l & E & I' & NI & ST & _). rewrite E.
      do 2 eexists. split; [reflexivity|]. split; [exact I'|].
      intros l' v Hl Hw. cbn in Hl, Hw. destruct (Nat.eqb_spec l l') as [->|N]; [discriminate|].
      destruct Hl as [->|Hl]; [congruence|].
      rewrite ST; [apply M; assumption|]. rewrite (inv_len _ _ I). apply (perm_in_lt _ _ _ I Hl).
    - destruct (free_ok _ _ _ I C) as (s' & E & I' & ST). rewrite E.
      do 2 eexists. split; [reflexivity|]. split; [exact I'|].
      intros l' v Hl Hw. cbn in Hl, Hw. apply in_remove in Hl. rewrite ST. apply M; tauto.
    - destruct (ensure_ok _ _ n I) as (s' & E & I' & ST & _). rewrite E.
      do 2 eexists. split; [reflexivity|]. split; [exact I'|].
      intros l' v Hl Hw. cbn in Hl, Hw. rewrite ST; [apply M; assumption|].
      rewrite (inv_len _ _ I). apply (perm_in_lt _ _ _ I Hl).
    - pose proof (perm_in_lt _ _ _ I C) as LT. unfold b_write. rewrite (inv_len _ _ I).
      destruct (Nat.ltb_spec l (b_max s)); [|lia].
      do 2 eexists. split; [reflexivity|]. split.
      + destruct I as [a b c d e]. constructor; cbn; auto. rewrite upd_length. exact c.
      + intros l' v' Hl Hw. cbn in Hl, Hw. cbn [b_store].
        destruct (Nat.eqb_spec l l') as [->|N].
        * inversion Hw; subst. apply upd_same. rewrite (inv_len _ _ I). exact LT.
        * rewrite upd_other by exact N. apply M; assumption.
    - pose proof (perm_in_lt _ _ _ I C) as LT. unfold b_read.
      destruct (nth_error (b_store s) l) as [v|] eqn:E.
      + do 2 eexists. split; [reflexivity|]. split; [exact I|]. exact M.
      + apply nth_error_None in E. rewrite (inv_len _ _ I) in E. lia.
  Qed.

  Lemma exec_inv h s : bexec h s -> Inv (live h) s /\ Mem h s.
  Proof.
    induction 1 as [|h s c s' o X IH C E].
    - split; [apply inv_init|]. intros l v [].
    - destruct IH as [I M]. destruct (step_ok h s c I M C) as (s2 & o2 & E2 & R).
      rewrite E in E2. inversion E2; subst. exact R.
  Qed.

  Lemma block_progress h s c : bexec h s -> client_ok h c -> bstep s c <> None.
  Proof.
    intros X C. destruct (exec_inv _ _ X) as [I M].
    destruct (step_ok h s c I M C) as (s' & o & E & _). rewrite E. discriminate.
  Qed.

  Lemma block_nodup h s : bexec h s -> NoDup (live h).
  Proof.
    intros X. destruct (exec_inv _ _ X) as [I M]. eapply NoDup_app_l, inv_nodup, I.
  Qed.

  Lemma block_fresh h s l : bexec ((CNext, OLoc l) :: h) s -> ~ In l (live h) /\ l < b_max s.
  Proof.
    intros X. pose proof (block_nodup _ _ X) as ND. cbn in ND. inversion ND; subst.
    split; [assumption|]. destruct (exec_inv _ _ X) as [I _]. apply (perm_in_lt _ _ _ I).
    cbn; auto.
  Qed.

  Lemma block_read h s l o : bexec ((CRead l, o) :: h) s ->
    forall w, last_written h l = Some w -> o = OVal w.
  Proof.
    intros X w Hw. inversion X as [|h' s' c s'' o' X' C E]; subst.
    destruct (exec_inv _ _ X') as [I M]. cbn in E, C. unfold b_read in E.
    rewrite (M l w C Hw) in E. inversion E; reflexivity.
  Qed.

  Lemma block_count h s : bexec h s -> b_fill s = length (live h) /\ b_fill s <= b_max s.
  Proof.
    intros X. destruct (exec_inv _ _ X) as [I _]. split; [apply I|].
    rewrite (inv_fill _ _ I). pose proof (Permutation_length (inv_part _ _ I)) as P.
    rewrite app_length, seq_length in P. lia.
  Qed.

  Lemma nexts_contig : forall n lv (s : bst) a sz r,
    Inv lv s -> b_free s = (a, sz) :: r -> n <= sz ->
    exists s', nexts bstep n s = Some (s', map OLoc (seq a n)).
  Proof.
    induction n as [|n IH]; intros lv s a sz r I E Hn; cbn [nexts seq map]; [eauto|].
    destruct (next_ok _ _ I) as (s' & l & EN & I' & _ & _ & F).
    cbn [b_step]. rewrite EN. destruct (F _ _ _ E) as [-> F'].
    destruct n as [|n].
    - cbn. eauto.
    - destruct F' as [r' Er]; [lia|].
      destruct (IH _ _ _ _ _ I' Er) as [s'' EE]; [lia|]. rewrite EE. eauto.
  Qed.

  Lemma block_contiguous h s n s1 o :
    bexec h s -> bstep s (CEnsure n) = Some (s1, o) ->
    exists a s2, nexts bstep n s1 = Some (s2, map OLoc (seq a n)).
  Proof.
    intros X E. destruct (exec_inv _ _ X) as [I _].
    destruct (ensure_ok _ _ n I) as (s' & E' & I' & _ & a & sz & r & EF & Hn).
    cbn [b_step] in E. rewrite E' in E. inversion E; subst.
    destruct (nexts_contig n _ _ _ _ _ I' EF Hn) as [s2 R]. eauto.
  Qed.
End Blk.

(** ** Singleton manager *)
Section Loc.
  Context {V : Type} (vnan vjunk : V).
  Notation lst := (lstate V).
  Notation lgrow := (l_grow vnan vjunk).
  Notation lnext := (l_next vnan vjunk).
  Notation lstep := (l_step vnan vjunk).

  (** [c] is the list threaded through [idx] starting at [h] *)
  Fixpoint chain (idx : list nat) (h : nat) (c : list nat) : Prop :=
    match c with
    | [] => h = 0
    | x :: r => h = x /\ x <> 0 /\ exists nx, nth_error idx x = Some nx /\ chain idx nx r
    end.

  Lemma chain_ext idx idx' c : forall h,
    (forall x, In x c -> nth_error idx' x = nth_error idx x) ->
    chain idx h c -> chain idx' h c.
  Proof.
    induction c as [|x r IH]; intros h E H; cbn in *; [exact H|].
    destruct H as (-> & N & nx & H1 & H2). split; [reflexivity|]. split; [exact N|].
    exists nx. rewrite E by auto. split; [exact H1|]. apply IH; auto.
  Qed.

  Record LInv (lv : list nat) (s : lst) : Prop := {
    li_chain : exists c, chain (l_index s) (l_head s) c /\
                         Permutation (lv ++ c) (seq 1 (l_max s - 1));
    li_fill : l_fill s = length lv;
    li_len  : length (l_store s) = l_max s;
    li_ilen : length (l_index s) = l_max s;
    li_max  : l_max s = 0 \/ 8 <= l_max s
  }.

  Lemma linv_init : LInv [] l_init.
  Proof.
    constructor; cbn; auto. exists []. cbn. auto.
  Qed.

  Lemma nth_error_seq n : forall a i, i < n -> nth_error (seq a n) i = Some (a + i).
  Proof.
    induction n as [|n IH]; intros a i H; [lia|]. destruct i; cbn.
    - rewrite Nat.add_0_r. reflexivity.
    - rewrite IH by lia. f_equal. lia.
  Qed.

  (** the chain written by the loop at the end of grow *)
  Lemma chain_fresh idx : forall n a,
    0 < a ->
    (forall i, i < n -> nth_error idx (a + i) = Some (S (a + i))) ->
    nth_error idx (a + n) = Some 0 ->
    chain idx a (seq a (S n)).
  Proof.
    induction n as [|n IH]; intros a Ha H H0.
    - cbn. repeat split; try lia. exists 0. rewrite Nat.add_0_r in H0. auto.
    - cbn [seq chain]. split; [reflexivity|]. split; [lia|]. exists (S a). split.
      + specialize (H 0 ltac:(lia)). rewrite Nat.add_0_r in H. exact H.
      + apply (IH (S a)); [lia| |].
        * intros i Hi. specialize (H (S i) ltac:(lia)).
          replace (S a + i) with (a + S i) by lia. exact H.
        * replace (S a + n) with (a + S n) by lia. exact H0.
  Qed.

  Lemma lgrow_inv lv (s : lst) :
    LInv lv s -> l_head s = 0 ->
    LInv lv (lgrow 0 s) /\ l_head (lgrow 0 s) <> 0 /\
    (forall i, 0 < i -> i < l_max s -> nth_error (l_store (lgrow 0 s)) i = nth_error (l_store s) i).
  Proof.
    intros [(c & CH & P) F L IL M] H0. rewrite H0 in CH.
    assert (c = []) as -> by (destruct c; cbn in CH; [reflexivity|destruct CH as (?&?&_); congruence]).
    rewrite app_nil_r in P.
    unfold l_grow. destruct M as [M|M].
    - (* first time *)
      rewrite M in *. cbn [Nat.eqb]. replace (initialSize =? initialSize) with true by reflexivity.
      change (2 * initialSize <? 0) with false. cbv iota. change (2 * initialSize) with 8.
      assert (lv = []) as -> by (cbn in P; apply Permutation_sym, Permutation_nil in P; exact P).
      split; [|split].
      + constructor; cbn [l_store l_index l_head l_max l_fill]; auto.
        exists (seq 1 7). split; [|apply Permutation_refl].
        cbn. repeat (split; [reflexivity|]; split; [lia|]; eexists; split; [reflexivity|]).
        reflexivity.
      + cbn. lia.
      + intros; lia.
    - destruct (Nat.eqb_spec (l_max s) 0) as [E|_]; [lia|].
      destruct (Nat.eqb_spec (l_max s) initialSize) as [E|_]; [unfold initialSize in E; lia|].
      destruct (Nat.ltb_spec (2 * l_max s) 0) as [E|_]; [lia|].
      set (m := l_max s) in *.
      assert (LI : length (firstn (m - 1) (skipn 1 (l_index s))) = m - 1)
        by (rewrite firstn_length, skipn_length; lia).
      assert (LS : length (firstn (m - 1) (skipn 1 (l_store s))) = m - 1)
        by (rewrite firstn_length, skipn_length; lia).
      split; [|split].
      + constructor; cbn [l_store l_index l_head l_max l_fill].
        * exists (seq m m). split.
          -- replace m with (S (m - 1)) at 7 by lia.
             apply chain_fresh; [lia| |].
             ++ intros i Hi. replace (m + i) with (S (m - 1 + i)) by lia. cbn [nth_error].
                rewrite nth_error_app2 by lia. rewrite LI.
                rewrite nth_error_app1 by (rewrite seq_length; lia).
                rewrite nth_error_seq by lia. f_equal. lia.
             ++ replace (m + (m - 1)) with (S (m - 1 + (m - 1))) by lia. cbn [nth_error].
                rewrite nth_error_app2 by lia. rewrite LI.
                rewrite nth_error_app2 by (rewrite seq_length; lia). rewrite seq_length.
                replace (m - 1 + (m - 1) - (m - 1) - (2 * m - m - 1)) with 0 by lia. reflexivity.
          -- replace (2 * m - 1) with ((m - 1) + m) by lia. rewrite seq_app.
             replace (1 + (m - 1)) with m by lia. apply Permutation_app_tail, P.
        * exact F.
        * cbn [length]. rewrite app_length, repeat_length, LS. lia.
        * cbn [length]. rewrite !app_length, LI, seq_length. cbn [length]. lia.
        * right; lia.
      + cbn [l_head]. lia.
      + intros i Hi Hm. cbn [l_store]. destruct i as [|i]; [lia|]. cbn [nth_error].
        rewrite nth_error_app1 by lia.
        assert (X : forall (l : list V) j k, j < k -> nth_error (firstn k l) j = nth_error l j).
        { clear. induction l; intros j k H; destruct j, k; cbn; try lia; auto. apply IHl; lia. }
        rewrite X by lia. destruct (l_store s); [cbn in *; lia|reflexivity].
  Qed.

  Lemma lin_lt lv (s : lst) l : LInv lv s -> In l lv -> 0 < l < l_max s.
  Proof.
    intros I H. destruct (li_chain _ _ I) as (c & _ & P).
    assert (In l (seq 1 (l_max s - 1))) as X.
    { eapply Permutation_in; [exact P|]. apply in_or_app; auto. }
    apply in_seq in X. lia.
  Qed.

  Lemma lnext_ok lv (s : lst) :
    LInv lv s ->
    exists s' l, lnext s = Some (s', l) /\ LInv (l :: lv) s' /\ ~ In l lv /\ l <> 0 /\
      (forall i, 0 < i -> i < l_max s -> nth_error (l_store s') i = nth_error (l_store s) i).
  Proof.
    intros I. set (s1 := if l_head s =? 0 then lgrow 0 s else s).
    assert (X : LInv lv s1 /\ l_head s1 <> 0 /\
      (forall i, 0 < i -> i < l_max s -> nth_error (l_store s1) i = nth_error (l_store s) i)).
    { unfold s1. destruct (Nat.eqb_spec (l_head s) 0) as [E|E].
      - apply lgrow_inv; assumption.
      - auto. }
    destruct X as (I1 & N1 & ST). destruct I1 as [(c & CH & P) F L IL M].
    destruct c as [|x c]; [cbn in CH; congruence|]. cbn [chain] in CH.
    destruct CH as (EH & Nx & nx & E & CH).
    unfold l_next. fold s1. destruct (Nat.eqb_spec (l_head s1) 0); [congruence|].
    rewrite EH, E. do 2 eexists. split; [reflexivity|].
    assert (NI : ~ In x lv).
    { assert (ND : NoDup (lv ++ x :: c)).
      { eapply Permutation_NoDup; [apply Permutation_sym, P|]. apply seq_NoDup. }
      apply NoDup_remove_2 in ND. intros H. apply ND. apply in_or_app; auto. }
    split; [|split; [exact NI|split; [exact Nx|exact ST]]].
    constructor; cbn [l_store l_index l_head l_max l_fill]; auto.
    - exists c. split; [exact CH|]. eapply perm_trans; [|exact P]. cbn. apply Permutation_middle.
    - cbn. congruence.
  Qed.

  Lemma updn_length l : forall i v, length (updn l i v) = length l.
  Proof. induction l; destruct i; cbn; auto. Qed.
  Lemma updn_same l : forall i v, i < length l -> nth_error (updn l i v) i = Some v.
  Proof. induction l; destruct i; cbn; intros; try lia; auto. apply IHl; lia. Qed.
  Lemma updn_other l : forall i j v, i <> j -> nth_error (updn l i v) j = nth_error l j.
  Proof. induction l; destruct i, j; cbn; intros; try congruence; auto. Qed.

  Lemma lfree_ok lv (s : lst) l :
    LInv lv s -> In l lv ->
    exists s', l_freeloc l s = Some s' /\ LInv (remove Nat.eq_dec l lv) s' /\
      l_store s' = l_store s.
  Proof.
    intros I Hl. pose proof (lin_lt _ _ _ I Hl) as LT.
    destruct I as [(c & CH & P) F L IL M].
    assert (ND : NoDup (lv ++ c)).
    { eapply Permutation_NoDup; [apply Permutation_sym, P|]. apply seq_NoDup. }
    pose proof (remove_perm l lv (NoDup_app_l _ _ ND) Hl) as RP.
    unfold l_freeloc. destruct (Nat.ltb_spec 0 l); [|lia]. destruct (Nat.ltb_spec l (l_max s)); [|lia].
    cbn [andb]. rewrite F, (Permutation_length RP). cbn [length].
    eexists; split; [reflexivity|]. split; [|reflexivity].
    constructor; cbn [l_store l_index l_head l_max l_fill]; auto.
    - exists (l :: c). split.
      + cbn [chain]. split; [reflexivity|]. split; [lia|]. exists (l_head s).
        split; [apply updn_same; lia|]. eapply chain_ext; [|exact CH].
        intros x Hx. apply updn_other. intros ->.
        assert (NI : ~ In x c).
        { apply in_split in Hl. destruct Hl as (a & b & ->). rewrite <- app_assoc in ND. cbn in ND.
          apply NoDup_remove_2 in ND. intros H'. apply ND. rewrite app_assoc. apply in_or_app; auto. }
        contradiction.
      + eapply perm_trans; [|exact P].
        eapply perm_trans; [apply Permutation_sym, Permutation_middle|].
        change (l :: remove Nat.eq_dec l lv ++ c) with ((l :: remove Nat.eq_dec l lv) ++ c).
        apply Permutation_app_tail, Permutation_sym, RP.
    - rewrite updn_length. exact IL.
  Qed.

  Notation lexec := (exec l_init lstep).
  Definition LMem (h : history) (s : lst) : Prop :=
    forall l v, In l (live h) -> last_written h l = Some v -> nth_error (l_store s) l = Some v.

  Lemma lstep_ok h s c :
    LInv (live h) s -> LMem h s -> client_ok h c ->
    exists s' o, lstep s c = Some (s', o) /\ LInv (live ((c, o) :: h)) s' /\
                 LMem ((c, o) :: h) s'.
  Proof.
    intros I M C. destruct c as [|l|n|l v|l]; cbn [l_step client_ok] in *.
    - destruct (lnext_ok _ _ I) as (s' & l & E & I' & NI & _ & ST). rewrite E.
      do 2 eexists. split; [reflexivity|]. split; [exact I'|].
      intros l' v Hl Hw. cbn in Hl, Hw. destruct (Nat.eqb_spec l l') as [->|N]; [discriminate|].
      destruct Hl as [->|Hl]; [congruence|]. pose proof (lin_lt _ _ _ I Hl).
      rewrite ST; [apply M; assumption|lia|lia].
    - destruct (lfree_ok _ _ _ I C) as (s' & E & I' & ST). rewrite E.
      do 2 eexists. split; [reflexivity|]. split; [exact I'|].
      intros l' v Hl Hw. cbn in Hl, Hw. apply in_remove in Hl. rewrite ST. apply M; tauto.
    - do 2 eexists. split; [reflexivity|]. split; [exact I|exact M].
    - pose proof (lin_lt _ _ _ I C) as LT. unfold l_write. rewrite (li_len _ _ I).
      destruct (Nat.ltb_spec l (l_max s)); [|lia].
      do 2 eexists. split; [reflexivity|]. split.
      + destruct I as [a b c d e]. constructor; cbn; auto. rewrite upd_length. exact c.
      + intros l' v' Hl Hw. cbn in Hl, Hw. cbn [l_store].
        destruct (Nat.eqb_spec l l') as [->|N].
        * inversion Hw; subst. apply upd_same. rewrite (li_len _ _ I). lia.
        * rewrite upd_other by exact N. apply M; assumption.
    - pose proof (lin_lt _ _ _ I C) as LT. unfold l_read.
      destruct (nth_error (l_store s) l) as [v|] eqn:E.
      + do 2 eexists. split; [reflexivity|]. split; [exact I|]. exact M.
      + apply nth_error_None in E. rewrite (li_len _ _ I) in E. lia.
  Qed.

  Lemma lexec_inv h s : lexec h s -> LInv (live h) s /\ LMem h s.
  Proof.
    induction 1 as [|h s c s' o X IH C E].
    - split; [apply linv_init|]. intros l v [].
    - destruct IH as [I M]. destruct (lstep_ok h s c I M C) as (s2 & o2 & E2 & R).
      rewrite E in E2. inversion E2; subst. exact R.
  Qed.

  Lemma single_progress h s c : lexec h s -> client_ok h c -> lstep s c <> None.
  Proof.
    intros X C. destruct (lexec_inv _ _ X) as [I M].
    destruct (lstep_ok h s c I M C) as (s' & o & E & _). rewrite E. discriminate.
  Qed.
  Lemma single_nodup h s : lexec h s -> NoDup (live h).
  Proof.
    intros X. destruct (lexec_inv _ _ X) as [I _]. destruct (li_chain _ _ I) as (c & _ & P).
    eapply NoDup_app_l. eapply Permutation_NoDup; [apply Permutation_sym, P|]. apply seq_NoDup.
  Qed.
  Lemma single_range h s l : lexec h s -> In l (live h) -> 0 < l < l_max s.
  Proof. intros X H. destruct (lexec_inv _ _ X) as [I _]. apply (lin_lt _ _ _ I H). Qed.
  Lemma single_read h s l o : lexec ((CRead l, o) :: h) s ->
    forall w, last_written h l = Some w -> o = OVal w.
  Proof.
    intros X w Hw. inversion X as [|h' s' c s'' o' X' C E]; subst.
    destruct (lexec_inv _ _ X') as [I M]. cbn in E, C. unfold l_read in E.
    rewrite (M l w C Hw) in E. inversion E; reflexivity.
  Qed.
  Lemma single_count h s : lexec h s -> l_fill s = length (live h).
  Proof. intros X. destruct (lexec_inv _ _ X) as [I _]. apply I. Qed.
End Loc.
