(* C43: the adjoints of fos_reverse as a recursion over the recorded operations. *)
From Coq Require Import List ZArith Bool Arith Lia Reals Lra FunctionalExtensionality.
From Coquelicot Require Import Coquelicot.
Require Import Verif.AdModel Verif.AdRecord Verif.AdSpec Verif.AdReplay Verif.AdRestore
  Verif.AdReal Verif.AdLin Verif.AdReverse Verif.AdTidy Verif.AdDeriv Verif.AdTangent
  Verif.AdTidyCalls Verif.AdPlain Verif.AdPlainRun Verif.AdProps Verif.AdReverseProps Verif.AdDerivProps
  Verif.HosModel Verif.HosSpec Verif.HosTay Verif.HosFun Verif.HosLoops Verif.HosProofs
  Verif.HrvModel Verif.HrvLoops Verif.HrvOp.
Import ListNotations.
Set Implicit Arguments.
Unset Asymmetric Patterns.
Local Open Scope R_scope.

Fixpoint adjrev (u ps x : nat -> R) (bs : list (bop reals)) (i j : nat) (T : rmem) (z0 : nat -> R) : rmem * (nat -> R) :=
  match bs with
  | [] => (fun _ => 0, z0)
  | b :: bs' =>
      let T' := @zval reals ps x i b T in
      let r := adjrev u ps x bs' (next_i b i) (j + length (out_of b T))%nat T' z0 in
      match b with
      | AssignInd _ res => (fst r, rupd (snd r) i (fst r res))
      | AssignDep _ res => (rupd (fst r) res (u j), snd r)
      | _ => (fadj b T T' (fst r), snd r)
      end
  end.

Lemma scatter_agree a ts l : forall A B : rmem, A l = B l -> scatter a ts A l = scatter a ts B l.
Proof.
  induction ts as [|[w r] ts IH]; intros A B H; auto. unfold scatter. cbn [fold_left fst snd]. apply IH.
  unfold rupd, upd. destruct (Nat.eqb_spec l r) as [->|]; auto. now rewrite H.
Qed.
Lemma fadj_agree N b (T T' A B : rmem) : (forall l, In l (bwrites b) -> (l < N)%nat) ->
  (forall l, (l < N)%nat -> A l = B l) -> forall l, (l < N)%nat -> fadj b T T' A l = fadj b T T' B l.
Proof.
  intros HW H l Hl. unfold fadj. destruct (fterms b T T') as [[res ts]|] eqn:E; auto.
  assert (Hr : (res < N)%nat).
  { apply HW. destruct b; cbn in E; try discriminate E; injection E; intros; subst; cbn; auto. }
  unfold adjlin. rewrite (H res Hr). apply scatter_agree. unfold rupd, upd. destruct (l =? res)%nat; auto.
Qed.

Lemma tidy_keeps N b D W D' W' (T : rmem) pk : tidy_op N b D W = Some (D', W') -> keeps b T pk -> pk = pushes b T.
Proof.
  unfold tidy_op. destruct (below N _ && _)%bool; [|discriminate]. destruct b; cbn [keeps]; auto; discriminate.
Qed.

Lemma tzero_val n : forall j (A : rmem) l, @tzero reals n j A l = if (j <=? l)%nat && (l <? j + n)%nat then 0 else A l.
Proof.
  induction n as [|n IH]; intros j A l; cbn [tzero].
  - destruct (Nat.leb_spec j l), (Nat.ltb_spec l (j + 0)); auto. lia.
  - rewrite IH. unfold upd. destruct (Nat.eqb_spec l j), (Nat.leb_spec (Datatypes.S j) l), (Nat.ltb_spec l (S j + n)),
      (Nat.leb_spec j l), (Nat.ltb_spec l (j + S n)); auto; lia.
Qed.

Lemma fos_ref last ps x u bs : let N := S last in forall D W s s' (gT gA : rmem) (gz : nat -> R),
  tidy N bs D W = true ->
  @vpath reals ps x (map (@Plain reals) bs ++ [Plain (DeathNot reals 0 last)]) s s' ->
  regular_run ps x (map (@Plain reals) bs) (vi s) (vT s) ->
  let r := @rrun reals u (map (@Plain reals) bs ++ [Plain (DeathNot reals 0 last)]) (@mkR reals gT gA (vk s') gz (vi s') (vy s')) in
  let q := adjrev u ps x bs (vi s) (vy s) (vT s) gz in
  (forall l, (l < N)%nat -> rA r l = fst q l) /\ (forall i, rz r i = snd q i).
Proof.
  intros N. induction bs as [|b bs IH]; intros D W s s' gT gA gz Ti P Rg; cbv zeta.
  - cbn [map app adjrev fst snd]. unfold rrun. cbn [rev app fold_left].
    unfold rstep. cbn [resolve rT rA rk rval].
    destruct (@restore_up reals (S last - 0) 0 gT (vk s')) as [T1 k1]. cbn [rA rz]. split; auto.
    intros l Hl. rewrite tzero_val. replace (0 <=? l)%nat with true by (symmetry; apply Nat.leb_le; lia).
    replace (l <? 0 + (S last - 0))%nat with true by (symmetry; apply Nat.ltb_lt; unfold N in Hl; lia). reflexivity.
  - cbn [tidy] in Ti. destruct (tidy_op N b D W) as [[D' W']|] eqn:To; [|discriminate].
    cbn [map app] in *. inversion P as [|o' t' p0 p0' pk Kp P']; subst. cbn [resolve] in Kp.
    pose proof (@tidy_keeps N b D W D' W' (vT s) pk To Kp) as ->.
    cbn [regular_run resolve] in Rg. destruct Rg as [G Rg].
    set (t := map (@Plain reals) bs ++ [Plain (DeathNot reals 0 last)]) in *.
    pose proof (@tidy_guard last ps x bs (next_i b (vi s)) (@zval reals ps x (vi s) b (vT s)) D' W' Ti) as (st & _ & _ & _ & Bd & Tr).
    pose proof (@restore_path reals true reals_exact ps x t _ _ u gT gA gz P') as RP.
    cbn [vnext vi vT vk vy resolve] in RP. specialize (RP Tr). cbv zeta in RP.
    specialize (IH D' W' _ _ gT gA gz Ti P' Rg). cbv zeta in IH. cbn [vnext vi vT vk vy resolve] in IH.
    rewrite rrun_cons. set (r1 := @rrun reals u t (@mkR reals gT gA (vk s') gz (vi s') (vy s'))) in *.
    destruct RP as (Ek & Ei & Ed & Ev). destruct IH as [IA IZ].
    cbn [adjrev]. fold (next_i b (vi s)) in IA, IZ.
    set (q := adjrev u ps x bs (next_i b (vi s)) (vy s + length (out_of b (vT s))) (@zval reals ps x (vi s) b (vT s)) gz) in *.
    assert (HW : forall l, In l (bwrites b) -> (l < N)%nat).
    { intros l Hl. apply (tidy_locs _ _ _ _ To). apply in_or_app. right. apply in_or_app. now left. }
    assert (HV : forall l, (l < N)%nat -> rT r1 l = @zval reals ps x (vi s) b (vT s) l).
    { intros l Hl. apply Ev. apply Bd. exact Hl. }
    pose proof (fun h1 h2 => @rval_ref N b D W D' W' ps x (vi s) (vT s) (rT r1) (rA r1) (vk s) To G HV h1 h2) as RV.
    unfold rstep. cbn [resolve]. rewrite Ek.
    destruct (@rval reals b (rT r1) (rA r1) (rev (pushes b (vT s)) ++ vk s)) as [[T2 A2] k2] eqn:Er.
    cbn [fst snd] in RV.
    destruct (not_dep_ind_cases b) as [Hi|[[res Hd]|[Hi Ho]]].
    + destruct b; try discriminate Hi. cbn [is_ind] in *. cbn [rval] in Er.
      assert (A2 = rA r1) as ->. { unfold restore in Er. destruct (pop reals _). now injection Er. }
      cbn [rA rz fst snd]. rewrite Ei. unfold next_i. cbn [is_ind]. split; [exact IA|].
      intros i. unfold rupd, upd. replace (S (vi s) - 1)%nat with (vi s) by lia.
      destruct (i =? vi s)%nat; auto. apply IA. apply HW. cbn; auto.
    + subst b. cbn [rval] in Er. injection Er as <- <- <-. cbn [rA rz fst snd out_of length] in *. rewrite Ed. split; [|exact IZ].
      intros l Hl. unfold rupd, upd. replace (vy s + 1 - 1)%nat with (vy s) by lia. destruct (l =? res)%nat; auto.
    + specialize (RV Hi). assert (Ho' : forall T, out_of b T = []) by (intros T; destruct b; auto; discriminate (Ho (fun _ => 0))).
      specialize (RV Ho').
      assert (GG : (forall l, (l < N)%nat -> A2 l = fadj b (vT s) (@zval reals ps x (vi s) b (vT s)) (fst q) l) /\ forall i, rz r1 i = snd q i).
      { split; [|exact IZ]. intros l Hl. rewrite RV. now apply (@fadj_agree N). }
      destruct b; try discriminate Hi; try (specialize (Ho' (fun _ => 0)); discriminate Ho'); exact GG.
Qed.
