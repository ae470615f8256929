(* Proofs for C48: whole reverse sweeps, strip by strip. *)
Require Import List ZArith NArith Bool Arith Lia.
Require Import Verif.AdModel Verif.AdSpec Verif.SpSpec Verif.SpProofs Verif.AdRestore Verif.AdReplay
  Verif.AdKeep Verif.BvModel Verif.BvSpec Verif.BvBits Verif.BvFwd Verif.BvRev Verif.BvFlow.
Import ListNotations.
Set Implicit Arguments.

Section Runs.
Variable K : Arith.
Notation val := (V K).
Notation mem := (mem K).
Notation op := (op K).
Notation bop := (bop K).
Variables (n m k : nat) (gz : nat -> bool).

Lemma rev_safe_flow (t : list op) : forall i d e,
  qsrun false orb orb (sbit m k) t (mkQ (fun _ => false) gz (i + inds t) (d + deps t)) = Some e ->
  i + inds t = n ->
  qi e = i /\ qd e = d /\
  (forall l, qA e l = true -> d <= k /\ flows false (plains t) l (k - d)) /\
  (forall j, i <= j < n -> qz e j = true -> d <= k /\ feeds false (plains t) (j - i) (k - d)).
Proof.
  induction t as [|o t IH]; intros i d e E Hn.
  - cbn in E. injection E as <-. unfold inds, deps in *. cbn in *. rewrite !Nat.add_0_r in *.
    repeat split; auto; try discriminate; intros; lia.
  - cbn [qsrun] in E.
    destruct o as [b| | | | | | | | | | | | | | | | | | | |];
      try (destruct (qsrun false orb orb (sbit m k) t _); discriminate E).
    rewrite (@inds_resolve K (Plain b) t (fun _ => zero K)) in *.
    rewrite (@deps_cons K (Plain b) t (fun _ => zero K)) in E. cbn [resolve] in *.
    rewrite !Nat.add_assoc in *.
    destruct (qsrun false orb orb (sbit m k) t _) as [s1|] eqn:E1; [|discriminate E].
    cbn [qsstep] in E. injection E as <-.
    destruct (IH _ _ _ E1 Hn) as (Q1 & Q2 & Q3 & Q4).
    rewrite qnext_i, qnext_d, qnext_qA, Q1, Q2.
    split; [lia|]. split; [lia|]. cbn [plains flat_map app]. fold (plains t).
    rewrite <- Q1, <- Q2 in *.
    apply (@rev_flow K n m); auto. intros l Hl. apply csafe_from in Hl.
    destruct b; auto. cbn [is_dep] in *. replace (qd s1 - 1) with d in Hl by lia. exact Hl.
Qed.

Variables (ps x : nat -> val) (ex : bool).
Hypothesis Exact : ex = true -> forall a c : val,
  sub K (add K a c) c = a /\ add K (sub K a c) c = a.

Lemma rev_tight_flow (t : list op) : forall (s : fstate K) e h gT,
  zexec ps x t s = inl e ->
  traceable ex ps x t (fi s) (fT s) -> tight_ok ex ps x t (fi s) (fT s) ->
  length (fy s) + deps t <= m -> fi s + inds t = n ->
  rev_keeps true (resolved ps x t s) h = true ->
  let '(q, T, kk) := qtrun false orb orb (sbit m k) t
      (mkQ (fun _ => false) gz (fi s + inds t) (length (fy s) + deps t), gT, fk e) in
  (forall l, qA q l = true ->
     length (fy s) <= k /\ flows false (resolved ps x t s) l (k - length (fy s))) /\
  (forall j, fi s <= j < n -> qz q j = true ->
     length (fy s) <= k /\ feeds false (resolved ps x t s) (j - fi s) (k - length (fy s))).
Proof.
  induction t as [|o t IH]; intros s e h gT E Tr Ok Hm Hn G.
  - cbn in E. injection E as <-. unfold inds, deps in *. cbn in *. rewrite !Nat.add_0_r in *.
    split; [discriminate|]. intros; lia.
  - cbn [zexec] in E. destruct (zstep ps x o s) as [s1|] eqn:E1; [|discriminate E].
    destruct (zstep_inl _ _ _ _ E1) as (_ & _ & T1 & I1 & Y1).
    cbn [traceable] in Tr. destruct Tr as (Okb & Rs & Np & Tr).
    cbn [tight_ok] in Ok. destruct Ok as (Sk & Sm & Nd & Ok).
    cbn [resolved rev_keeps] in G |- *. rewrite E1 in G |- *.
    rewrite (@deps_cons K o t (fT s)) in *. rewrite (@inds_resolve K o t (fT s)) in *.
    set (b := resolve (fT s) o) in *.
    rewrite !andb_true_iff in G. destruct G as [[G1 G2] G3].
    assert (Ly : length (fy s1) = length (fy s) + (if is_dep b then 1 else 0)).
    { rewrite Y1, app_length. destruct b; reflexivity. }
    assert (Li : fi s1 = fi s + (if is_ind b then 1 else 0)).
    { rewrite I1. destruct (is_ind b); lia. }
    specialize (IH s1 e (stale b h) gT E).
    pose proof (@tight_dual K n m 0 k (fun _ => false) gz ps x ex Exact t s1 e (fun _ => false)
      (stale b h) gT E) as TD.
    rewrite T1, I1 in IH, TD. specialize (IH Tr Ok ltac:(lia) ltac:(destruct (is_ind b); lia) G3).
    specialize (TD Tr Ok ltac:(lia) G3).
    rewrite <- I1, Li in IH, TD. rewrite Ly in IH, TD.
    rewrite !Nat.add_assoc.
    cbn [qtrun]. destruct (qtrun false orb orb (sbit m k) t _) as [[q T] kk] eqn:EQ.
    destruct TD as (Q1 & Q2 & -> & Qv & _). destruct IH as [Q3 Q4].
    unfold qtstep.
    assert (Eb : resolve T o = b).
    { rewrite <- Rs. apply resolve_pointer. intros l Hl.
      replace (fi s + (if is_ind b then 1 else 0)) with (if is_ind b then S (fi s) else fi s) in Qv
        by (destruct (is_ind b); lia).
      apply Qv. rewrite none_in_iff in Np. now apply Np. }
    rewrite Eb. destruct (qtaylor b T (fk s1)) as [T' k'].
    rewrite qnext_qA. rewrite <- Q2 in Q3. rewrite <- Q1, <- Q2 in Q4.
    apply (@rev_flow K n m); auto. intros l Hl. apply ctight_from in Hl.
    destruct b; auto. cbn [is_dep] in *. replace (qd q - 1) with (length (fy s)) in Hl by lia. exact Hl.
Qed.
End Runs.

(* ------------------------------------------------------------------ *)
(* Strips.                                                              *)
Section Cols.
Variable wb : nat.
Hypothesis wb1 : 1 <= wb.

Lemma extract_cols_spec n todo : forall wd i idx cb z c k, at_bit wb i idx cb ->
  extract_cols wb n todo wd idx cb z c k =
  if Nat.leb wd k && Nat.ltb k (wd + todo)
  then Some (filter (fun v => colbit wb (i + (k - wd)) (z v)) (seq 0 n)) else c k.
Proof.
  induction todo as [|todo IH]; intros wd i idx cb z c k A; cbn [extract_cols].
  - destruct (Nat.leb_spec wd k), (Nat.ltb_spec k (wd + 0)); cbn; auto; lia.
  - rewrite (@at_fix wb wb1 i idx cb A). rewrite (IH _ (S i) _ _ _ _ _ (@at_next wb wb1 i)).
    destruct (Nat.leb_spec (S wd) k), (Nat.ltb_spec k (S wd + todo)), (Nat.leb_spec wd k),
      (Nat.ltb_spec k (wd + S todo)); cbn [andb]; try lia.
    + f_equal. apply filter_ext. intros v. f_equal. lia.
    + unfold cset. destruct (Nat.eqb_spec k wd); [lia|reflexivity].
    + unfold cset. destruct (Nat.eqb_spec k wd) as [->|]; [|lia].
      f_equal. apply filter_ext. intros v. rewrite land_pow2, negb_involutive.
      unfold colbit. rewrite Nat.sub_diag, Nat.add_0_r. reflexivity.
    + unfold cset. destruct (Nat.eqb_spec k wd); [lia|reflexivity].
Qed.

Variables (n m : nat) (P : nat -> (nat -> bool) -> Prop).
Notation bs := (bits_per_strip wb m).
Variable sweep : (nat -> row) -> option (nat -> row).
Hypothesis sweep_ok : forall s z, sweep (seed wb m s) = Some z ->
  forall j, j < bs -> s * bs + j < m -> P (s * bs + j) (fun v => colbit wb j (z v)).
Definition col (c : crstore) (k : nat) : Prop :=
  exists f, c k = Some (filter f (seq 0 n)) /\ P k f.

Lemma strips_rev_rows : forall todo s c c',
  (forall k, k < m -> k < s * bs -> col c k) ->
  strips_rev wb sweep n m todo s c = BvRows c' ->
  forall k, k < m -> k < (s + todo) * bs -> col c' k.
Proof.
  induction todo as [|todo IH]; intros s c c' H E k Hk Hb; cbn [strips_rev] in E.
  - injection E as <-. apply H; auto. now rewrite Nat.add_0_r in Hb.
  - destruct (sweep (seed wb m s)) as [z|] eqn:Es; try discriminate E.
    refine (IH (S s) _ c' _ E k Hk _); [|replace (S s + todo) with (s + S todo) by lia; exact Hb].
    intros j Hj Hs. unfold col. rewrite (@extract_cols_spec n _ _ 0 0 (msb wb)) by (now apply at_start).
    set (nxt := if Nat.ltb m (S s * bs) then m else S s * bs).
    assert (Hn : nxt = Nat.min m (S s * bs)).
    { unfold nxt. destruct (Nat.ltb_spec m (S s * bs)); lia. }
    destruct (Nat.leb_spec (s * bs) j); cbn [andb]; [|apply H; auto].
    destruct (Nat.ltb_spec j (s * bs + (nxt - s * bs))); [|exfalso; cbn [Nat.mul] in *; lia].
    eexists. split; [reflexivity|]. cbn [Nat.add].
    replace j with (s * bs + (j - s * bs)) at 1 by lia. apply sweep_ok; auto; cbn [Nat.mul] in Hs; lia.
Qed.
Theorem strips_rev_pattern c' :
  strips_rev wb sweep n m (batches wb m) 0 cnull = BvRows c' ->
  forall k, k < m -> col c' k.
Proof.
  intros E k Hk. apply (@strips_rev_rows (batches wb m) 0 cnull c'); auto.
  - intros. cbn in *. lia.
  - pose proof (@strips_cover wb wb1 m). cbn [Nat.add]. lia.
Qed.
Lemma strips_rev_some todo : (forall sd, sweep sd <> None) -> forall s c,
  exists c', strips_rev wb sweep n m todo s c = BvRows c'.
Proof.
  intros H. induction todo as [|todo IH]; intros s c; cbn [strips_rev]; eauto.
  destruct (sweep (seed wb m s)) eqn:E; [apply IH|now apply H in E].
Qed.
End Cols.
