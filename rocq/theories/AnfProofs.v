(* C30: proofs.  The statements are in AnfProps.v. *)
From Coq Require Import List ZArith Bool Arith Lia Reals Lra FunctionalExtensionality.
Require Import Verif.AdModel Verif.AdRecord Verif.AdSpec Verif.AdReplay Verif.AdRestore
  Verif.AdReal Verif.AdLin Verif.AdReverse Verif.AdTidy Verif.AnfModel Verif.AnfSpec.
Import ListNotations.
Set Implicit Arguments.
Unset Asymmetric Patterns.
Local Open Scope R_scope.

Definition is_abs (b : bop reals) : bool := match b with AbsVal _ _ _ _ => true | _ => false end.
Definition inc (c : bool) (n : nat) : nat := if c then S n else n.

(* switching variables of the sweep *)
Fixpoint psw (ps x : nat -> R) (t : list (op reals)) (i : nat) (T : rmem) : list R :=
  match t with
  | [] => []
  | o :: t' =>
      let b := @resolve reals T o in
      @sw_of reals b T ++ psw ps x t' (inc (is_ind b) i) (@zval reals ps x i b T)
  end.

Lemma plz_exec ps x t : forall (s m : fstate reals) z, zexec ps x t s = inl m ->
  plz ps x t s z = (Done m, z ++ psw ps x t (fi s) (fT s)).
Proof.
  induction t as [|o t IH]; intros s m z H; cbn [zexec plz psw] in *.
  - injection H as <-. now rewrite app_nil_r.
  - unfold zstep in *. destruct (oob (fT s) o); [discriminate|].
    destruct (zabort (resolve (fT s) o) (fT s)); [discriminate|].
    rewrite (IH _ _ _ H). cbn [fi fT]. now rewrite <- app_assoc.
Qed.
Lemma plz_zrun (K : Arith) ps x t : forall (s : fstate K) z, fst (plz ps x t s z) = zrun ps x t s.
Proof.
  induction t as [|o t IH]; intros s z; cbn [plz zrun]; auto.
  destruct (zstep ps x o s); auto.
Qed.

(* ------------------------------------------------------------------ *)
(* Tangents of the extended function *)

Definition xtval (ps x xd wd : nat -> R) (i q : nat) (b : bop reals) (T D : rmem) : rmem :=
  match b with
  | AbsVal _ _ res _ => rupd D res (wd q)
  | _ => @tval reals ps x xd i b T D
  end.

Fixpoint xtouts (ps x xd wd : nat -> R) (t : list (op reals)) (i q : nat) (T D : rmem) : list R :=
  match t with
  | [] => []
  | o :: t' =>
      let b := @resolve reals T o in
      tout_of b D ++ xtouts ps x xd wd t' (inc (is_ind b) i) (inc (is_abs b) q)
                       (@zval reals ps x i b T) (xtval ps x xd wd i q b T D)
  end.
Fixpoint xtsw (ps x xd wd : nat -> R) (t : list (op reals)) (i q : nat) (T D : rmem) : list R :=
  match t with
  | [] => []
  | o :: t' =>
      let b := @resolve reals T o in
      @sw_of reals b D ++ xtsw ps x xd wd t' (inc (is_ind b) i) (inc (is_abs b) q)
                       (@zval reals ps x i b T) (xtval ps x xd wd i q b T D)
  end.

(* ------------------------------------------------------------------ *)
(* The guard of AdReverse.v for the reverse sweep with cut-open |.| *)

Definition pback (N : nat) (b : bop reals) (bad : nat -> bool) (s : sets) : option sets :=
  match b with
  | AbsVal _ arg res _ =>
      if below N [res; arg] && none_in (dirt s) [res]
      then Some (mkS (dirt s) (sadd (sdel (used s) [res]) [arg])) else None
  | _ => aback N b bad s
  end.
Fixpoint pguard (N : nat) (ps x : nat -> R) (t : list (op reals)) (i : nat) (T : rmem)
  : option sets :=
  match t with
  | [] => Some (mkS (fun _ => true) (fun _ => false))
  | o :: t' =>
      let b := @resolve reals T o in
      let i' := if is_ind b then S i else i in
      let T' := @zval reals ps x i b T in
      match pguard N ps x t' i' T' with
      | Some s => pback N b (@badset reals true ps x t' i' T') s
      | None => None
      end
  end.
Fixpoint pregular (ps x : nat -> R) (t : list (op reals)) (i : nat) (T : rmem) : Prop :=
  match t with
  | [] => True
  | o :: t' =>
      let b := @resolve reals T o in
      let T' := @zval reals ps x i b T in
      (is_abs b = false -> regular b T T') /\ pregular ps x t' (if is_ind b then S i else i) T'
  end.

Fixpoint nsw (ps x : nat -> R) (t : list (op reals)) (i : nat) (T : rmem) : nat :=
  match t with
  | [] => O
  | o :: t' =>
      let b := @resolve reals T o in
      inc (is_abs b) (nsw ps x t' (inc (is_ind b) i) (@zval reals ps x i b T))
  end.
Lemma psw_length ps x t : forall i T, length (psw ps x t i T) = nsw ps x t i T.
Proof.
  induction t as [|o t IH]; intros i T; cbn [psw nsw]; auto.
  rewrite app_length, IH. now destruct (@resolve reals T o).
Qed.

Lemma plrun_cons u v o t (m : plst reals) : plrun u v (o :: t) m = plstep u v o (plrun u v t m).
Proof. unfold plrun. cbn [rev]. now rewrite fold_left_app. Qed.
Lemma plstep_other u v o (s : plst reals) : is_abs (resolve (rT (plR s)) o) = false ->
  plstep u v o s = mkPL (rstep u o (plR s)) (plw s) (plk s).
Proof. unfold plstep. now destruct (resolve (rT (plR s)) o). Qed.

Theorem pl_restore ps x t : forall (s s' : vst reals) u v gT gA gz gw q,
  vpath ps x t s s' ->
  @traceable reals true ps x t (vi s) (vT s) ->
  let r := plrun u v t (mkPL (mkR gT gA (vk s') gz (vi s') (vy s')) gw
                          (q + nsw ps x t (vi s) (vT s))) in
  rk (plR r) = vk s /\ rii (plR r) = vi s /\ rid (plR r) = vy s /\ plk r = q /\
  forall l, @badset reals true ps x t (vi s) (vT s) l = false -> rT (plR r) l = vT s l.
Proof.
  induction t as [|o t IH]; intros s s' u v gT gA gz gw q P Tr; cbv zeta.
  - inversion P; subst. cbn. rewrite Nat.add_0_r. repeat split; auto. discriminate.
  - inversion P as [|o' t' s0 s0' pk Kp P']; subst.
    cbn [traceable] in Tr. destruct Tr as (Ok & Rs & Np & Tr).
    cbn [nsw].
    set (b := resolve (vT s) o) in *.
    specialize (IH _ _ u v gT gA gz gw (inc (is_abs b) q) P'). cbn [vnext vi vT] in IH. fold b in IH.
    specialize (IH Tr). cbv zeta in IH.
    change (if is_ind b then S (vi s) else vi s) with (inc (is_ind b) (vi s)) in *.
    replace (inc (is_abs b) q + nsw ps x t (inc (is_ind b) (vi s)) (zval ps x (vi s) b (vT s)))%nat
      with (q + inc (is_abs b) (nsw ps x t (inc (is_ind b) (vi s)) (zval ps x (vi s) b (vT s))))%nat in IH
      by (destruct (is_abs b); cbn; lia).
    rewrite plrun_cons.
    match type of IH with context [plrun u v t ?m] => set (r := plrun u v t m) in * end.
    destruct IH as (Ek & Ei & Ed & Eq & Ev).
    set (bad := @badset reals true ps x t (inc (is_ind b) (vi s)) (zval ps x (vi s) b (vT s))) in *.
    assert (Eb : resolve (rT (plR r)) o = b).
    { rewrite <- Rs. apply resolve_pointer. intros l Hl. apply Ev.
      rewrite none_in_iff in Np. now apply Np. }
    pose proof (@rval_values reals true reals_exact ps x (vi s) b (vT s) (rT (plR r)) (rA (plR r)) pk (vk s) bad Ok Kp Ev) as Rv.
    cbn [vnext vk] in Ek.
    destruct (is_abs b) eqn:Ab.
    + destruct b eqn:Hb; try discriminate Ab. unfold plstep. rewrite Eb.
      cbn [keeps pushes] in Kp. subst pk. cbn [rev app rval] in *. rewrite Ek.
      unfold restore, pop in *. cbn [plR plk rk rii rid rT] in *.
      destruct Rv as [_ Rv]. cbn [vnext vi vy] in *.
      change (resolve (vT s) o) with b in Ed. rewrite Hb in Ed. cbn in Ed, Ei.
      split; [auto|]. split; [auto|]. split; [lia|split].
      * rewrite Eq. cbn. lia.
      * intros l Hl. apply Rv. cbn [badset] in Hl. change (resolve (vT s) o) with b in Hl.
        rewrite Hb in Hl. exact Hl.
    + rewrite plstep_other by (rewrite Eb; exact Ab). cbn [plR plw plk].
      pose proof (rstep_parts u o (plR r)) as Q. cbv zeta in Q. rewrite Eb in Q. rewrite Ek in Q.
      destruct (rval b (rT (plR r)) (rA (plR r)) (rev pk ++ vk s)) as [[T1 A1] k1].
      destruct Q as (Q1 & Q2 & Q3 & Q4). destruct Rv as [-> Rv].
      rewrite Q2, Q3, Q4, Q1, Ei, Ed, Eq. cbn [vnext vi vy]. fold b.
      rewrite (out_length b (rT (plR r)) (vT s)).
      repeat split; auto.
      * unfold inc; destruct (is_ind b); lia.
      * lia.
Qed.

Theorem pl_adj_path N ps x xd wd t : forall (s s' : vst reals) u v gT gA gz gw q D st,
  vpath ps x t s s' ->
  @traceable reals true ps x t (vi s) (vT s) ->
  pregular ps x t (vi s) (vT s) ->
  pguard N ps x t (vi s) (vT s) = Some st ->
  let n := nsw ps x t (vi s) (vT s) in
  let r := plrun u v t (mkPL (mkR gT gA (vk s') gz (vi s') (vy s')) gw (q + n)) in
  exists A : rmem,
    (forall l, dirt st l = false -> rA (plR r) l = A l) /\
    (forall l, used st l = false -> A l = 0) /\
    wsum u (vy s) (xtouts ps x xd wd t (vi s) q (vT s) D) +
    wsum v q (xtsw ps x xd wd t (vi s) q (vT s) D) =
      dot N A D + isum (rz (plR r)) xd (vi s) (vi s' - vi s) + isum (plw r) wd q n.
Proof.
  induction t as [|o t IH]; intros s s' u v gT gA gz gw q D st P Tr Rg Ga; cbv zeta.
  - inversion P; subst. cbn in Ga. injection Ga as <-. exists (fun _ => 0).
    cbn [dirt used xtouts xtsw wsum nsw]. rewrite Nat.sub_diag. cbn [isum].
    rewrite dot_zero by auto. repeat split; auto; try discriminate; try ring.
  - inversion P as [|o' t' s0 s0' pk Kp P']; subst.
    pose proof (vpath_vi P') as Vi.
    cbn [traceable] in Tr. destruct Tr as (Ok & Rs & Np & Tr).
    cbn [pregular] in Rg. destruct Rg as [Rb Rg].
    cbn [pguard] in Ga. cbn [nsw].
    set (b := resolve (vT s) o) in *.
    change (if is_ind b then S (vi s) else vi s) with (inc (is_ind b) (vi s)) in *.
    set (i' := inc (is_ind b) (vi s)) in *.
    set (T' := zval ps x (vi s) b (vT s)) in *.
    destruct (pguard N ps x t i' T') as [st1|] eqn:G1; [|discriminate].
    pose proof (@pl_restore ps x t _ _ u v gT gA gz gw (inc (is_abs b) q) P') as RP.
    cbn [vnext vi vT] in RP. fold b in RP.
    change (if is_ind b then S (vi s) else vi s) with i' in RP. fold T' in RP.
    specialize (RP Tr). cbv zeta in RP.
    specialize (IH (vnext ps x o pk s) s' u v gT gA gz gw (inc (is_abs b) q)
                  (xtval ps x xd wd (vi s) q b (vT s) D) st1 P').
    cbn [vnext vi vT vy] in IH. fold b in IH.
    change (if is_ind b then S (vi s) else vi s) with i' in IH. fold T' in IH.
    specialize (IH Tr Rg G1). cbv zeta in IH.
    rewrite plrun_cons.
    set (n1 := nsw ps x t i' T') in *.
    replace (q + inc (is_abs b) n1)%nat with (inc (is_abs b) q + n1)%nat
      by (destruct (is_abs b); cbn; lia).
    match type of IH with context [plrun u v t ?m] => set (r1 := plrun u v t m) in * end.
    set (r := plstep u v o r1).
    destruct RP as (Ek & Ei & Ed & Eq & Ev). destruct IH as (A & Ag & Uz & W).
    cbn [vnext vk] in Ek. cbn [vnext vy] in Ed. cbn [vnext vi] in Vi.
    fold b in Ed, Vi. change (if is_ind b then S (vi s) else vi s) with i' in Vi.
    assert (Eb : resolve (rT (plR r1)) o = b).
    { rewrite <- Rs. apply resolve_pointer. intros l Hl. apply Ev.
      rewrite none_in_iff in Np. now apply Np. }
    cbn [xtouts xtsw]. fold b i' T'.
    destruct (is_abs b) eqn:Ab.
    { (* |.| *)
      destruct b eqn:Heqb; try discriminate Ab. cbn [pback] in Ga.
      match type of Ga with (if ?c then _ else _) = _ => destruct c eqn:C; [|discriminate] end.
      injection Ga as <-. bools. cbn [dirt used].
      assert (Hr : (res < N)%nat) by (apply H; cbn; auto).
      assert (Ha : (arg < N)%nat) by (apply H; cbn; auto).
      assert (Hd : dirt st1 res = false) by (apply H0; cbn; auto).
      cbn [is_ind inc] in i'. subst i'.
      assert (RA : rA (plR r) = rupd (rupd (rA (plR r1)) res 0) arg
                      (rupd (rA (plR r1)) res 0 arg + v q) /\
                   rz (plR r) = rz (plR r1) /\
                   plw r = rupd (plw r1) q (rA (plR r1) res)).
      { subst r. unfold plstep. rewrite Eb. unfold restore.
        destruct (pop reals (rk (plR r1))). cbn [plR plw rA rz]. rewrite Eq. cbn [inc].
        replace (S q - 1)%nat with q by lia. repeat split. }
      destruct RA as (-> & -> & ->).
      exists (rupd (rupd A res 0) arg (rupd A res 0 arg + v q)). split; [|split].
      - intros l Hl. pose proof (Ag l Hl) as E1. pose proof (Ag res Hd) as E2.
        unfold rupd, upd. destruct (Nat.eqb_spec l arg) as [->|N1].
        + destruct (arg =? res)%nat; auto. now rewrite E1.
        + destruct (l =? res)%nat; auto.
      - intros l Hl. apply sadd_false in Hl as [Hl Hu]. apply sdel_false in Hu.
        cbn in Hl, Hu. rewrite rupd_neq by intuition congruence.
        unfold rupd, upd. destruct (Nat.eqb_spec l res); auto. apply Uz. intuition congruence.
      - cbn [tout_of sw_of app wsum inc xtval isum].
        cbn [out_of length] in W. rewrite Nat.add_0_r in W. cbn [inc xtval] in W.
        rewrite rupd_eq.
        rewrite (@isum_ext (rupd (plw r1) q (rA (plR r1) res)) (plw r1)).
        2:{ intros k0 Hk. apply rupd_neq. lia. }
        rewrite !dot_updA by auto.
        rewrite dot_updD in W by auto. rewrite (Ag res) by auto.
        cbn [is_ind inc] in *.
        match goal with |- ?a + (?c + ?d) = _ => transitivity (c + (a + d)); [ring|] end.
        rewrite W. ring. }
    assert (Hx : xtval ps x xd wd (vi s) q b (vT s) D = tval ps x xd (vi s) b (vT s) D)
      by (destruct b; auto; discriminate Ab).
    assert (Hs : forall D, @sw_of reals b D = []) by (intros; destruct b; auto; discriminate Ab).
    assert (Hg : aback N b (@badset reals true ps x t i' T') st1 = Some st)
      by (destruct b; auto; discriminate Ab).
    rewrite Hs. cbn [app inc] in *. rewrite Hx in *. clear Hx Ga.
    assert (Er : r = mkPL (rstep u o (plR r1)) (plw r1) (plk r1))
      by (apply plstep_other; rewrite Eb; exact Ab).
    rewrite Er. cbn [plR plw].
    destruct (not_dep_ind_cases b) as [Hi|[[res Hd]|[Hi Ho]]].
    + (* independent *)
      destruct b eqn:Heqb; try discriminate Hi. cbn [aback] in Hg. cbn [is_ind inc] in i'.
      subst i'.
      match type of Hg with (if ?c then _ else _) = _ => destruct c eqn:C; [|discriminate] end.
      injection Hg as <-. bools. cbn [dirt used].
      assert (Hr : (res < N)%nat) by (apply H; cbn; auto).
      assert (Hd : dirt st1 res = false) by (apply H0; cbn; auto).
      exists (rupd A res 0).
      assert (RA : rA (rstep u o (plR r1)) = rA (plR r1) /\
                   rz (rstep u o (plR r1)) = @upd reals (rz (plR r1)) (rii (plR r1) - 1) (rA (plR r1) res)).
      { unfold rstep. rewrite Eb. cbn [rval]. unfold restore.
        destruct (pop reals (rk (plR r1))). cbn. auto. }
      destruct RA as [-> ->]. split; [|split].
      * intros l Hl. apply sadd_false in Hl as [Hl Hd']. cbn in Hl.
        rewrite rupd_neq by intuition congruence. auto.
      * intros l Hl. apply sdel_false in Hl. unfold rupd, upd.
        destruct (Nat.eqb_spec l res); auto. apply Uz. cbn in Hl. intuition congruence.
      * cbn [tout_of app].
        cbn [out_of length] in W. rewrite Nat.add_0_r in W. rewrite W.
        rewrite Ei. cbn [is_ind inc]. replace (S (vi s) - 1)%nat with (vi s) by lia.
        replace (vi s' - vi s)%nat with (S (vi s' - S (vi s))) by (cbn [is_ind inc] in Vi; lia).
        cbn [isum]. change (@upd reals (rz (plR r1)) (vi s) (rA (plR r1) res)) with
          (rupd (rz (plR r1)) (vi s) (rA (plR r1) res)). rewrite rupd_eq.
        rewrite (@isum_ext (rupd (rz (plR r1)) (vi s) (rA (plR r1) res)) (rz (plR r1))).
        2:{ intros k0 Hk. apply rupd_neq. lia. }
        cbn [tval]. fold (rupd D res (xd (vi s))).
        rewrite dot_updA, dot_updD by auto. rewrite (Ag res) by auto. ring.
    + (* dependent *)
      rewrite Hd in *. cbn [aback] in Hg. cbn [is_ind inc] in i'. subst i'.
      match type of Hg with (if ?c then _ else _) = _ => destruct c eqn:C; [|discriminate] end.
      injection Hg as <-. bools. cbn [dirt used].
      assert (Hr : (res < N)%nat) by (apply H; cbn; auto).
      assert (Hu : A res = 0) by (apply Uz, H0; cbn; auto).
      exists (rupd A res (u (rid (plR r1) - 1)%nat)).
      assert (RA : rA (rstep u o (plR r1)) = rupd (rA (plR r1)) res (u (rid (plR r1) - 1)%nat) /\
                   rz (rstep u o (plR r1)) = rz (plR r1)).
      { unfold rstep. rewrite Eb. cbn [rval]. auto. }
      destruct RA as [-> ->]. split; [|split].
      * intros l Hl. apply sdel_false in Hl. unfold rupd, upd.
        destruct (Nat.eqb_spec l res); auto. apply Ag. cbn in Hl. intuition congruence.
      * intros l Hl. apply sadd_false in Hl as [Hl Hl']. cbn in Hl.
        rewrite rupd_neq by intuition congruence. auto.
      * cbn [tout_of app wsum].
        cbn [out_of length] in W, Ed. rewrite Nat.add_1_r in W, Ed.
        rewrite Ed. replace (S (vy s) - 1)%nat with (vy s) by lia.
        cbn [tval is_ind inc] in *. rewrite dot_updA by auto. rewrite Hu.
        match goal with |- ?a + ?c + ?d = _ => transitivity (a + (c + d)); [ring|] end.
        rewrite W. rewrite Hd. cbn [is_ind inc]. ring.
    + (* other operations *)
      assert (Ho' : forall T, tout_of b T = []).
      { intros T0. specialize (Ho T0). destruct b; auto; discriminate Ho. }
      rewrite Ho'. cbn [app].
      assert (i' = vi s) as Ei' by (unfold i'; rewrite Hi; reflexivity).
      destruct (@rstep_other u o (plR r1)) as [RA RZ]; rewrite ?Eb; auto.
      rewrite Eb, Ek in RA.
      destruct (@aback_ok N b ps x xd (vi s) (vT s) D (rT (plR r1)) (rA (plR r1)) A pk (vk s)
                  (@badset reals true ps x t i' T') st1 st)
        as (A' & P1 & P2 & P3); auto.
      exists A'. rewrite RA, RZ. split; [exact P1|split; [exact P2|]].
      rewrite Ho in W. cbn [length] in W. rewrite Nat.add_0_r in W. rewrite W, P3.
      rewrite Ei'. ring.
Qed.
