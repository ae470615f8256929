(** Taylor's formula in several variables along a line, for C50. *)
From Coq Require Import List Arith Bool Lia Reals Lra FunctionalExtensionality.
From Coquelicot Require Import Coquelicot.
From Verif Require Import DrvModel DrvSpec HosSpec HosTay TnModel TnSpec TnEnum TnInterp TnCoeffEval.
Import ListNotations.
Local Open Scope R_scope.

(** ** Specification: partial derivatives of all orders *)
(** g is the gradient of f at z (first p coordinates): every directional derivative is the
    sum of the g u times the u-th coordinate of the direction *)
Definition gradient_at (p : nat) (f : vec -> R) (z g : vec) : Prop :=
  forall c, directional f z c (TnInterp.rsum (fun u => g u * c u) (seq 0 p)).
(** for all z in a box around 0 *)
Definition near0 (p : nat) (P : vec -> Prop) : Prop :=
  exists rho : posreal, forall z, (forall u, (u < p)%nat -> Rabs (z u) < rho) -> P z.
(** G l is the partial derivative of f of exponents l around 0, |l| <= d *)
Definition partials (p d : nat) (f : vec -> R) (G : list nat -> vec -> R) : Prop :=
  near0 p (fun z => G (repeat 0%nat p) z = f z) /\
  forall l, length l = p -> (list_sum l < d)%nat ->
    near0 p (fun z => gradient_at p (G l) z (fun u => G (bump u l) z)).

(** ** Sums over exponent vectors *)
Lemma nth_bump_same : forall l u, (u < length l)%nat -> nth u (bump u l) 0%nat = S (nth u l 0%nat).
Proof. induction l; intros [|u] H; cbn in *; try lia. now rewrite IHl by lia. Qed.
Lemma factl_bump : forall l u, (u < length l)%nat -> factl (bump u l) = INR (S (nth u l 0%nat)) * factl l.
Proof.
  induction l; intros [|u] H; cbn [length] in H; try lia; cbn [bump factl nth].
  - rewrite fact_simpl, mult_INR. ring.
  - rewrite IHl by lia. ring.
Qed.
Lemma bump_bump : forall l u w, bump u (bump w l) = bump w (bump u l).
Proof. induction l; intros [|u] [|w]; cbn; auto. now rewrite IHl. Qed.

Lemma vectors_sum A : forall p d (f : list nat -> A -> R) a0,
  TnInterp.rsum (fun v => f v a0) (vectors (S p) d)
  = TnInterp.rsum (fun a => TnInterp.rsum (fun e => f (a :: e) a0) (vectors p (d - a))) (seq 0 (S d)).
Proof.
  intros. cbn [vectors]. rewrite rsum_flat_map, rsum_rev. apply rsum_ext. intros a _. now rewrite rsum_map.
Qed.

Lemma vectors_shift : forall p u i (h : list nat -> R), (u < p)%nat ->
  TnInterp.rsum (fun e => INR (nth u e 0%nat) * h e) (vectors p (S i))
  = TnInterp.rsum (fun e => INR (S (nth u e 0%nat)) * h (bump u e)) (vectors p i).
Proof.
  induction p; intros u i h U; [lia|].
  pose proof (vectors_sum unit p (S i) (fun e _ => INR (nth u e 0%nat) * h e) tt) as E1. cbv beta in E1. rewrite E1. clear E1.
  pose proof (vectors_sum unit p i (fun e _ => INR (S (nth u e 0%nat)) * h (bump u e)) tt) as E2. cbv beta in E2. rewrite E2. clear E2.
  destruct u as [|u].
  - cbn [nth bump]. change (seq 0 (S (S i))) with (0%nat :: seq 1 (S i)). cbn [TnInterp.rsum].
    rewrite (rsum_zero _ _ (vectors p (S i - 0))) by (intros; cbn; ring).
    rewrite rsum_shift. cbn [Nat.sub]. ring.
  - cbn [nth bump]. rewrite seq_S, rsum_app. cbn [TnInterp.rsum Nat.add].
    rewrite (rsum_zero _ _ (vectors p (S i - S i))).
    + rewrite Rplus_0_r, Rplus_0_r. apply rsum_ext. intros a Ia. apply in_seq in Ia.
      replace (S i - a)%nat with (S (i - a)) by lia. exact (IHp u (i - a)%nat (fun e => h (a :: e)) ltac:(lia)).
    + intros e Ie. apply vectors_in in Ie. destruct Ie as [L E]. rewrite Nat.sub_diag in E.
      replace (nth u e 0%nat) with 0%nat; [cbn; ring|].
      clear -E. revert u. induction e; intros [|u]; try reflexivity; change (list_sum (a :: e)) with (a + list_sum e)%nat in E; cbn; [lia|apply IHe; lia].
Qed.

Lemma INR_list_sum : forall e, INR (list_sum e) = TnInterp.rsum (fun u => INR (nth u e 0%nat)) (seq 0 (length e)).
Proof.
  induction e as [|a e IH]; [reflexivity|]. change (list_sum (a :: e)) with (a + list_sum e)%nat.
  rewrite plus_INR, IH. cbn [length seq TnInterp.rsum nth]. f_equal. now rewrite rsum_shift.
Qed.

(** coefficient of s^i *)
Definition coef (p : nat) (c : vec) (h : list nat -> R) (i : nat) : R :=
  TnInterp.rsum (fun e => h e / factl e * mono (map c (seq 0 p)) e) (vectors p i).

Lemma coef_step p c h i :
  INR (S i) * coef p c h (S i) = TnInterp.rsum (fun u => c u * coef p c (fun e => h (bump u e)) i) (seq 0 p).
Proof.
  unfold coef. rewrite <- rsum_scal.
  rewrite (rsum_ext _ _ (fun e => TnInterp.rsum (fun u => INR (nth u e 0%nat) * (h e / factl e * mono (map c (seq 0 p)) e)) (seq 0 p))).
  - rewrite rsum_swap. apply rsum_ext. intros u U. apply in_seq in U. rewrite vectors_shift by lia. rewrite <- rsum_scal.
    apply rsum_ext. intros e I. apply vectors_in in I. destruct I as [L E].
    rewrite mono_bump, factl_bump by (rewrite ?map_length, ?seq_length; lia).
    assert (Hn : nth u (map c (seq 0 p)) 0 = c u).
    { rewrite (nth_indep _ 0 (c 0%nat)) by (rewrite map_length, seq_length; lia). rewrite map_nth, seq_nth by lia. reflexivity. }
    rewrite Hn. field. split; [apply factl_pos|]. apply Sn0.
  - intros e I. apply vectors_in in I. destruct I as [L E].
    transitivity (TnInterp.rsum (fun u => (h e / factl e * mono (map c (seq 0 p)) e) * INR (nth u e 0%nat)) (seq 0 p)); [|apply rsum_ext; intros; ring].
    rewrite rsum_scal. rewrite <- E, INR_list_sum, L. ring.
Qed.

(** ** Along a line *)
Definition along0 (c : vec) (s : R) : vec := fun u => s * c u.
Lemma near0_line p P (c : vec) : near0 p P -> locally 0 (fun s => P (along0 c s)).
Proof.
  intros (rho & H).
  assert (Mx : exists M, 0 < M /\ forall u, (u < p)%nat -> Rabs (c u) < M).
  { clear. induction p as [|p (M & P & Q)]; [exists 1; split; [lra|intros; lia]|].
    exists (M + Rabs (c p) + 1). split; [pose proof (Rabs_pos (c p)); lra|].
    intros u U. destruct (Nat.eq_dec u p) as [->|]; [lra|]. specialize (Q u ltac:(lia)). pose proof (Rabs_pos (c p)). lra. }
  destruct Mx as (M & Mp & HM).
  assert (D : 0 < rho / M) by (apply Rdiv_lt_0_compat; [apply cond_pos|exact Mp]).
  exists (mkposreal _ D). intros s Hs. change (Rabs (s - 0) < rho / M) in Hs. rewrite Rminus_0_r in Hs.
  apply H. intros u U. unfold along0. rewrite Rabs_mult. specialize (HM u U).
  apply Rle_lt_trans with (Rabs s * M); [apply Rmult_le_compat_l; [apply Rabs_pos|lra]|].
  apply Rlt_le_trans with (rho / M * M); [apply Rmult_lt_compat_r; assumption|]. right. field. lra.
Qed.

Lemma tay_rsum k s0 : forall A (l : list A) (f : A -> R -> R) (a : A -> nat -> R),
  (forall x, In x l -> tay k (f x) s0 (a x)) ->
  tay k (fun s => TnInterp.rsum (fun x => f x s) l) s0 (fun i => TnInterp.rsum (fun x => a x i) l).
Proof.
  induction l as [|x l IH]; intros f a H; cbn [TnInterp.rsum].
  - eapply tay_coef; [|apply tay_const]. intros [|i]; reflexivity.
  - apply tay_plus; [apply H; now left|]. apply IH. intros; apply H; now right.
Qed.

Lemma coef_0 p c (G : list nat -> vec -> R) :
  G (repeat 0%nat p) (along0 c 0) = coef p c (fun e => G e (fun _ => 0)) 0.
Proof.
  unfold coef.
  assert (E : vectors p 0 = [repeat 0%nat p]).
  { clear. induction p; [reflexivity|]. cbn [vectors]. cbn [seq rev flat_map app Nat.sub]. rewrite IHp. reflexivity. }
  rewrite E. cbn [TnInterp.rsum]. assert (F : factl (repeat 0%nat p) = 1).
  { clear. induction p; [reflexivity|]. cbn [repeat factl]. rewrite IHp. cbn. ring. }
  assert (Mo : forall x, mono x (repeat 0%nat p) = 1).
  { clear. induction p; intros [|a x]; try reflexivity. cbn [repeat mono]. rewrite IHp. cbn. ring. }
  rewrite F, Mo. replace (along0 c 0) with (fun _ : nat => 0); [field|].
  apply functional_extensionality. intros u. unfold along0. ring.
Qed.

Lemma line_tay p c : forall k (G : list nat -> vec -> R),
  (forall l, length l = p -> (list_sum l < k)%nat -> near0 p (fun z => gradient_at p (G l) z (fun u => G (bump u l) z))) ->
  tay k (fun s => G (repeat 0%nat p) (along0 c s)) 0 (coef p c (fun e => G e (fun _ => 0))).
Proof.
  induction k; intros G H.
  - split; [apply coef_0|exact I].
  - split; [apply coef_0|].
    exists (fun s => TnInterp.rsum (fun u => c u * G (bump u (repeat 0%nat p)) (along0 c s)) (seq 0 p)). split.
    + assert (E : list_sum (repeat 0%nat p) = 0%nat) by (clear; induction p; auto).
        pose proof (near0_line p _ c (H (repeat 0%nat p) (repeat_length _ _) ltac:(lia))) as L.
        eapply filter_imp; [|exact L]. cbv beta. intros s Gs. specialize (Gs c). unfold directional in Gs.
        rewrite (rsum_ext _ _ (fun u => c u * G (bump u (repeat 0%nat p)) (along0 c s))) in Gs by (intros; ring).
        assert (Q : is_derive (fun t => G (repeat 0%nat p) (along0 c (s + t))) 0
          (TnInterp.rsum (fun u => c u * G (bump u (repeat 0%nat p)) (along0 c s)) (seq 0 p))).
        { eapply is_derive_ext; [|exact Gs]. intros t. cbv beta. f_equal. apply functional_extensionality. intros u.
          unfold line, along0. ring. }
        assert (Q2 : is_derive (fun y => G (repeat 0%nat p) (along0 c (s + (y - s)))) s
          (TnInterp.rsum (fun u => c u * G (bump u (repeat 0%nat p)) (along0 c s)) (seq 0 p))).
        { set (dd := TnInterp.rsum _ _) in *. replace dd with (scal 1 dd) by (cbn; apply Rmult_1_l).
          apply (is_derive_comp (fun t => G (repeat 0%nat p) (along0 c (s + t))) (fun y => y - s)).
          - replace (s - s) with 0 by ring. exact Q.
          - auto_derive; [trivial|ring]. }
        eapply is_derive_ext; [|exact Q2]. intros y. cbv beta. f_equal. f_equal. ring.
    + eapply tay_coef; [|apply tay_rsum].
        2:{ intros u U. apply in_seq in U. apply tay_scal. apply (IHk (fun e => G (bump u e))).
            intros l Ll Sl. destruct (H (bump u l)) as (rho & Hr); [now rewrite bump_length|rewrite bump_sum by lia; lia|].
            exists rho. intros z Hz. specialize (Hr z Hz).
            intros c'. specialize (Hr c'). unfold directional in *. 
            rewrite (rsum_ext _ _ (fun u0 => G (bump u (bump u0 l)) z * c' u0)) in Hr; [exact Hr|].
            intros w _. now rewrite bump_bump. }
        intros i Hi. cbv beta. unfold dcoef. rewrite coef_step. reflexivity.
Qed.

(** Taylor's formula: the coefficients of s -> f(s c) *)
Theorem line_taylor p d f G c : partials p d f G ->
  taylor d (fun s => f (along0 c s)) 0 (coef p c (fun e => G e (fun _ => 0))).
Proof.
  intros [H0 H]. apply tay_taylor. eapply tay_ext_loc; [|apply line_tay; exact H].
  exact (near0_line p _ c H0).
Qed.
