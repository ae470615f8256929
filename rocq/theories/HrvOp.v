(* C43: one operation of hos_reverse restores the rows and distributes the adjoint row of
   the result: A[arg] += w * A[res] with a power series product, where w is the row
   of the partial derivative.                                              *)
From Coq Require Import List ZArith Bool Arith Lia Reals Lra FunctionalExtensionality.
From Coquelicot Require Import Coquelicot.
Require Import Verif.AdModel Verif.AdRecord Verif.AdSpec Verif.AdReplay Verif.AdRestore
  Verif.AdReal Verif.AdLin Verif.AdReverse Verif.AdTidy Verif.AdDeriv Verif.AdTangent
  Verif.HosModel Verif.HosSpec Verif.HosTay Verif.HosFun Verif.HosLoops Verif.HosProofs
  Verif.HrvModel Verif.HrvLoops.
Import ListNotations.
Set Implicit Arguments.
Unset Asymmetric Patterns.
Local Open Scope R_scope.

(* ------------------------------------------------------------------ *)
(* rows an operation does not write *)
Lemma up_inv (A : Type) (P : A -> Prop) k body (s : A) : (forall i a, P a -> P (body i a)) -> P s -> P (up k body s).
Proof. intros H. induction k; cbn; auto. Qed.
Lemma dn_inv (A : Type) (P : A -> Prop) k body : (forall i a, P a -> P (body i a)) -> forall s : A, P s -> P (dn k body s).
Proof. intros H. induction k; cbn; auto. Qed.
Lemma zloop_inv (P : rrows -> Prop) k body C : (forall i s, P (fst s) -> P (fst (body i s))) -> P C -> P (@zloop reals k body C).
Proof. intros H. unfold zloop. intros H0. apply (@up_inv _ (fun s => P (fst s))); auto. Qed.

Lemma hval_frame k ps x xc n (b : bop reals) T C l j : ~ In l (bwrites b) ->
  @hval reals k ps x xc n b T C l j = C l j.
Proof.
  intros H.
  assert (PU : forall A r i v, l <> r -> (A : rrows) l j = C l j -> rput A r i v l j = C l j).
  { intros. rewrite put_loc; auto. }
  assert (RW : forall r g A, l <> r -> (A : rrows) l j = C l j -> @row reals k r g A l j = C l j).
  { intros. unfold row. apply (@up_inv _ (fun A : rrows => A l j = C l j)); auto. }
  assert (PR : forall op r a1 a2 f A, l <> r -> (A : rrows) l j = C l j -> @prow reals op k r a1 a2 f A l j = C l j).
  { intros. unfold prow. apply (@dn_inv _ (fun A : rrows => A l j = C l j)); auto. }
  destruct b; cbn [bwrites] in H; cbn [hval]; auto;
    try (assert (Nr : l <> res) by (intros ->; apply H; cbn; auto; fail)); auto.
  all: try (apply RW; solve [auto]).
  all: try (apply PR; solve [auto]).
  all: try (unfold divrow, exprow, helprow, logrow, powrow;
            apply (@zloop_inv (fun A : rrows => A l j = C l j)); auto; intros i [A z]; cbn [fst]; auto; fail).
  - unfold trigrow. assert (Na : l <> a2) by (intros ->; apply H; cbn; auto).
    apply (@zloop_inv (fun A : rrows => A l j = C l j)); auto; intros i [A z]; cbn [fst]; intros E.
    apply PU; auto. apply PU; auto. apply (@up_inv _ (fun A : rrows => A l j = C l j)); auto 8.
  - unfold trigrow. assert (Na : l <> a2) by (intros ->; apply H; cbn; auto).
    apply (@zloop_inv (fun A : rrows => A l j = C l j)); auto; intros i [A z]; cbn [fst]; intros E.
    apply PU; auto. apply PU; auto. apply (@up_inv _ (fun A : rrows => A l j = C l j)); auto 8.
  - assert (HS : match @hspecial reals k f (@zval reals ps x n (HelpOp reals f a1 a2 res) T a1) a1 res C with
       Some C' => C' l j = C l j | None => True end).
    { destruct f; cbn [hspecial]; auto;
      repeat match goal with |- context [if ?e then _ else _] => destruct e; auto end;
      try (apply (@up_inv _ (fun A : rrows => A l j = C l j)); auto). }
    destruct (hspecial _ _ _ _ _ _); auto.
    unfold helprow. apply (@zloop_inv (fun A : rrows => A l j = C l j)); auto; intros i [A z]; cbn [fst]; auto.
  - destruct (eqb reals (T arg) (zero reals)).
    + destruct (leb reals c (zero reals)); auto.
      match goal with |- context [if ?e then _ else _] => destruct e end.
      * unfold powfrac.
        match goal with |- fst (up k ?b (C, 0%nat)) l j = _ => set (body := b) end.
        apply (@up_inv _ (fun s : rrows * nat => fst s l j = C l j)); auto.
        intros i [A q]; cbn [fst]. intros E. unfold body.
        destruct (ltb reals (one reals) (sub reals c (ofnat reals i)));
        destruct (ltb reals (sub reals c (ofnat reals i)) (one reals) && gt0 reals (sub reals c (ofnat reals i)));
        destruct (lt0 reals (sub reals c (ofnat reals i))); cbn [fst]; auto.
      * destruct (eqb reals c (one reals)); auto. unfold powint.
        apply (@up_inv _ (fun A : rrows => A l j = C l j)).
        -- intros i A E. apply (@dn_inv _ (fun A : rrows => A l j = C l j)); auto.
        -- apply (@dn_inv _ (fun A : rrows => A l j = C l j)); auto.
    + unfold powrow. apply (@zloop_inv (fun A : rrows => A l j = C l j)); auto; intros i [A z]; cbn [fst]; auto.
  - unfold absrow.
    match goal with |- fst (up k ?b (C, ?v)) l j = _ => set (body := b); set (v0 := v) end.
    apply (@up_inv _ (fun s : rrows * R => fst s l j = C l j)); auto.
    intros i [A q]; cbn [fst]. intros E. unfold body. cbn [fst]. auto.
  - destruct (ltb _ _ _); auto.
  - destruct (leb _ _ _); auto.
  - (* vec_copy *)
    assert (G : forall n0 q A, ~ In l (seq (res + q) n0) -> (A : rrows) l j = C l j -> @hcopy reals k n0 arg res q A l j = C l j).
    { induction n0 as [|n0 IH]; intros q A Hs E; cbn [hcopy]; auto.
      apply IH. { intros Q. apply Hs. cbn. right. now replace (S (res + q)) with (res + S q)%nat by lia. }
      apply RW; auto. intros ->. apply Hs. now left. }
    apply G; auto. now rewrite Nat.add_0_r.
  - assert (G : forall n0 q U A, (A : rrows) l j = C l j -> @hdot reals k n0 a1 a2 res q U A l j = C l j).
    { induction n0 as [|n0 IH]; intros q U A E; cbn [hdot]; auto. }
    apply G; auto.
  - assert (G : forall n0 q U A, ~ In l (seq (res + q) n0) -> (A : rrows) l j = C l j -> @haxpy reals k n0 arg a1 a2 res q U A l j = C l j).
    { induction n0 as [|n0 IH]; intros q U A Hs E; cbn [haxpy]; auto.
      apply IH. { intros Q. apply Hs. cbn. right. now replace (S (res + q)) with (res + S q)%nat by lia. }
      apply PR; auto. intros ->. apply Hs. now left. }
    apply G; auto. now rewrite Nat.add_0_r.
  - assert (G : forall n0 r A, ~ In l (seq r n0) -> (A : rrows) l j = C l j -> @hstock reals k n0 r A l j = C l j).
    { induction n0 as [|n0 IH]; intros r A Hs E; cbn [hstock]; auto.
      apply IH. { intros Q. apply Hs. now right. }
      apply RW; auto. intros ->. apply Hs. now left. }
    apply G; auto.
Qed.

(* ------------------------------------------------------------------ *)
(* fos_reverse: the adjoints of one operation *)

(* vec_dot does not reset the adjoint of its result: as if it were an argument of itself *)
Definition fterms (b : bop reals) (T T' : rmem) : option (nat * list (R * nat)) :=
  match b with
  | VecDot _ a1 a2 n res => Some (res, (1, res) :: flat_map (dot_terms T a1 a2) (seq 0 n))
  | _ => deriv_terms b T T'
  end.
Definition fadj (b : bop reals) (T T' A : rmem) : rmem :=
  match fterms b T T' with Some (res, ts) => adjlin res ts A | None => A end.

Lemma tidy_locs N b D W D' W' : tidy_op N b D W = Some (D', W') ->
  forall l, In l (breads b ++ bwrites b ++ extra b) -> (l < N)%nat.
Proof.
  unfold tidy_op. destruct (below N (breads b ++ bwrites b ++ extra b)) eqn:B; cbn [andb]; [|discriminate].
  intros _. now apply below_iff.
Qed.

Lemma rval_ref N (b : bop reals) D W D' W' ps x i (T Tr A : rmem) k :
  tidy_op N b D W = Some (D', W') ->
  regular b T (@zval reals ps x i b T) ->
  (forall l, (l < N)%nat -> Tr l = @zval reals ps x i b T l) ->
  is_ind b = false -> (forall T, out_of b T = []) ->
  forall l, snd (fst (@rval reals b Tr A (rev (@pushes reals b T) ++ k))) l = fadj b T (@zval reals ps x i b T) A l.
Proof.
  intros Ti G Hv NI NO l. pose proof (tidy_locs _ _ _ _ Ti) as B.
  assert (Fr : forall l, (l < N)%nat -> ~ In l (bwrites b) -> Tr l = T l).
  { intros l0 H0 H1. rewrite Hv by auto. now apply (@zval_frame reals). }
  assert (SH : forall res args na nb, shape b = Some (res, args, na, nb, true) ->
     fterms b T (@zval reals ps x i b T) = deriv_terms b T (@zval reals ps x i b T) ->
     snd (fst (@rval reals b Tr A (rev (@pushes reals b T) ++ k))) l = fadj b T (@zval reals ps x i b T) A l).
  { intros res args na nb Sh Ef. destruct (shape_writes b Sh) as [Hw Hp]. rewrite Hp. cbn [rev app].
    destruct (shape_deriv b T (@zval reals ps x i b T) Sh) as (ts & Dt & Sub).
    unfold fadj. rewrite Ef, Dt.
    destruct (shape_reads b Sh) as [_ Rd].
    eapply rval_adj; eauto.
    intros l0 Hl. destruct (Nat.eq_dec l0 res) as [->|Ne]; [apply rupd_eq|].
    rewrite rupd_neq by auto. apply Fr; [apply B; auto|]. rewrite Hw. cbn. intuition congruence. }
  unfold tidy_op in Ti.
  destruct (below N (breads b ++ bwrites b ++ extra b) && forallb D (breads b))%bool; [|discriminate].
  destruct b; try discriminate NI; try (specialize (NO (fun _ => 0)); discriminate NO);
    try discriminate Ti;
    try (eapply SH; [cbn [shape]; first [reflexivity | f_equal; repeat f_equal]|reflexivity]; fail).
  all: clear SH; try reflexivity.
  - cbn [shape] in Ti. destruct (negb (arg =? res)%nat) eqn:E; [|discriminate].
    apply negb_true_iff, Nat.eqb_neq in E. unfold fadj. cbn [fterms deriv_terms rval pushes rev app restore pop snd fst].
    unfold adjlin, scatter, rupd, upd. cbn [fold_left fst snd reals zero add V]. dec_eq; try ring; auto.
  - destruct ((a1 =? res) || (a2 =? res))%nat eqn:E; [discriminate|]. apply orb_false_iff in E as [E1 E2].
    apply Nat.eqb_neq in E1. apply Nat.eqb_neq in E2.
    assert (F1 : Tr a1 = T a1) by (apply Fr; cbn; [apply B; cbn; auto|intuition congruence]).
    assert (F2 : Tr a2 = T a2) by (apply Fr; cbn; [apply B; cbn; auto|intuition congruence]).
    unfold fadj. cbn [fterms deriv_terms rval pushes rev app restore pop snd fst].
    unfold adjlin, scatter, rupd, upd. cbn [fold_left fst snd reals zero add sub mul V].
    dec_eq; try rewrite F1; try rewrite F2; try ring; auto.
  - destruct ((a1 =? res) || (a2 =? res))%nat eqn:E; [discriminate|]. apply orb_false_iff in E as [E1 E2].
    apply Nat.eqb_neq in E1. apply Nat.eqb_neq in E2.
    assert (F1 : Tr a1 = T a1) by (apply Fr; cbn; [apply B; cbn; auto|intuition congruence]).
    assert (F2 : Tr a2 = T a2) by (apply Fr; cbn; [apply B; cbn; auto|intuition congruence]).
    unfold fadj. cbn [fterms deriv_terms rval pushes rev app restore pop snd fst].
    unfold adjlin, scatter, rupd, upd. cbn [fold_left fst snd reals zero add sub mul V].
    dec_eq; try rewrite F1; try rewrite F2; try ring; auto.
  - assert (F2 : Tr a2 = @zval reals ps x i (SinOp reals a1 a2 res) T a2) by (apply Hv, B; cbn; auto).
    unfold fadj. cbn [fterms deriv_terms]. rewrite <- F2. cbn [rval pushes rev app restore pop snd fst].
    unfold adj1, adjlin, scatter, rupd, upd. cbn [fold_left fst snd reals zero add sub mul V]. dec_eq; ring.
  - assert (F2 : Tr a2 = @zval reals ps x i (CosOp reals a1 a2 res) T a2) by (apply Hv, B; cbn; auto).
    unfold fadj. cbn [fterms deriv_terms]. rewrite <- F2. cbn [rval pushes rev app restore pop snd fst].
    unfold adj1, adjlin, scatter, rupd, upd. cbn [fold_left fst snd reals zero add sub mul V]. dec_eq; ring.
  - cbn [shape] in Ti. destruct (negb (a2 =? res)%nat) eqn:E; [|discriminate].
    apply negb_true_iff, Nat.eqb_neq in E.
    assert (F2 : Tr a2 = T a2) by (apply Fr; cbn; [apply B; cbn; auto 6|intuition congruence]).
    unfold fadj. cbn [fterms deriv_terms rval pushes rev app restore pop snd fst].
    unfold adj1, adjlin, scatter, rupd, upd. cbn [fold_left fst snd reals zero add sub mul V].
    dec_eq; try rewrite F2; try ring; auto.
  - destruct (W res) eqn:Wr; [discriminate|]. cbn [orb] in Ti.
    destruct (AdRestore.sin res (seq a1 size ++ seq a2 size)) eqn:E; [discriminate|].
    apply sin_false in E.
    assert (Q : forall k, (0 <= k < 0 + size)%nat -> (a1 + k <> res /\ a2 + k <> res)%nat).
    { intros q Hq. split; intros <-; apply E; apply in_or_app; [left|right]; apply in_seq; lia. }
    unfold fadj. cbn [fterms]. cbn [rval pushes rev app restore pop snd fst].
    rewrite (@rdot_scatter size a1 a2 res 0%nat T Tr A Q).
    + unfold adjlin, scatter. cbn [fold_left fst snd].
      replace (rupd (rupd A res 0) res (rupd A res 0 res + 1 * A res)) with A; auto.
      extensionality l0. unfold rupd, upd. cbn. dec_eq; try ring; auto.
    + intros q Hq. split; apply Fr.
      * apply B. apply in_or_app. left. cbn. apply in_or_app. left. apply in_seq; lia.
      * cbn. destruct (Q q Hq). intuition congruence.
      * apply B. apply in_or_app. left. cbn. apply in_or_app. right. apply in_seq; lia.
      * cbn. destruct (Q q Hq). intuition congruence.
Qed.
