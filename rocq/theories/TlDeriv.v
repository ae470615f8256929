(** One-sided derivatives. *)
From Coq Require Import List Arith Bool Lia Reals Lra.
From Coquelicot Require Import Coquelicot.
From Verif Require Import AdReal AdDeriv TlModel TlSpec.
Unset Asymmetric Patterns.
Local Open Scope R_scope.

(** an equivalent form: h is, to the right of 0, a function with derivative l at 0 *)
Definition rd (h : R -> R) (l : R) : Prop :=
  exists g delta, 0 < delta /\ is_derive g 0 l /\ forall t, 0 <= t < delta -> g t = h t.

Lemma rd_right : forall h l, rd h l -> right_derivative h l.
Proof.
  intros h l (g & d & D & Hg & E) eps Eps.
  apply is_derive_Reals in Hg. destruct (Hg eps Eps) as (d' & H).
  exists (Rmin d d'). split; [apply Rmin_pos; [assumption|apply cond_pos]|].
  intros t [T1 T2]. assert (t < d) by (eapply Rlt_le_trans; [exact T2|apply Rmin_l]).
  assert (t < d') by (eapply Rlt_le_trans; [exact T2|apply Rmin_r]).
  rewrite <- (E t), <- (E 0) by lra. specialize (H t ltac:(lra) ltac:(rewrite Rabs_pos_eq; lra)).
  now rewrite Rplus_0_l in H.
Qed.
Lemma right_rd : forall h l, right_derivative h l -> rd h l.
Proof.
  intros h l H. exists (fun t => if Rle_dec 0 t then h t else h 0 + l * t), 1.
  split; [lra|]. split.
  2:{ intros t T. destruct (Rle_dec 0 t); [reflexivity|lra]. }
  apply is_derive_Reals. intros eps Eps. destruct (H eps Eps) as (d & D & Hd).
  exists (mkposreal d D). intros t T0 T1. cbn [pos] in T1. rewrite Rplus_0_l.
  destruct (Rle_dec 0 0); [|lra]. destruct (Rle_dec 0 t).
  - apply Hd. split; [lra|]. rewrite Rabs_pos_eq in T1; lra.
  - replace ((h 0 + l * t - h 0) / t - l) with 0 by (field; assumption). rewrite Rabs_R0. exact Eps.
Qed.
Lemma rd_eq : forall h l l', rd h l -> l = l' -> rd h l'.
Proof. intros. now subst. Qed.
Lemma rd_loc : forall h k l delta, 0 < delta -> (forall t, 0 <= t < delta -> h t = k t) -> rd h l -> rd k l.
Proof.
  intros h k l d D E (g & d' & D' & Hg & E'). exists g, (Rmin d d'). split; [now apply Rmin_pos|]. split; [exact Hg|].
  intros t T. assert (t < d) by (eapply Rlt_le_trans; [apply T|apply Rmin_l]).
  assert (t < d') by (eapply Rlt_le_trans; [apply T|apply Rmin_r]). rewrite E', E by lra. reflexivity.
Qed.
Lemma rd_ext : forall h k l, (forall t, h t = k t) -> rd h l -> rd k l.
Proof. intros h k l E. apply (rd_loc h k l 1); [lra|]. intros. apply E. Qed.
Lemma rd_const : forall c, rd (fun _ => c) 0.
Proof. intros c. exists (fun _ => c), 1. split; [lra|]. split; [apply d_const|]. reflexivity. Qed.
Lemma rd_comp : forall f h a b, rd h a -> is_derive f (h 0) b -> rd (fun t => f (h t)) (b * a).
Proof.
  intros f h a b (g & d & D & Hg & E) Hf. exists (fun t => f (g t)), d. split; [assumption|]. split.
  - apply d_comp; [exact Hg|]. now rewrite E by lra.
  - intros t T. now rewrite E.
Qed.
Lemma rd_two : forall (F : (R -> R) -> (R -> R) -> R -> R) h k a b c,
  rd h a -> rd k b ->
  (forall f g f' g' t, f t = f' t -> g t = g' t -> F f g t = F f' g' t) ->
  (forall f g, is_derive f 0 a -> is_derive g 0 b -> f 0 = h 0 -> g 0 = k 0 -> is_derive (F f g) 0 c) ->
  rd (F h k) c.
Proof.
  intros F h k a b c (f & d & D & Hf & E) (g & d' & D' & Hg & E') X H.
  exists (F f g), (Rmin d d'). split; [now apply Rmin_pos|]. split.
  - apply H; [assumption|assumption|apply E; lra|apply E'; lra].
  - intros t T. assert (t < d) by (eapply Rlt_le_trans; [apply T|apply Rmin_l]).
    assert (t < d') by (eapply Rlt_le_trans; [apply T|apply Rmin_r]). apply X; [apply E; lra|apply E'; lra].
Qed.
Lemma rd_plus : forall h k a b, rd h a -> rd k b -> rd (fun t => h t + k t) (a + b).
Proof.
  intros. apply (rd_two (fun h k t => h t + k t) h k a b); try assumption; [congruence|].
  intros. now apply d_plus.
Qed.
Lemma rd_minus : forall h k a b, rd h a -> rd k b -> rd (fun t => h t - k t) (a - b).
Proof.
  intros. apply (rd_two (fun h k t => h t - k t) h k a b); try assumption; [congruence|].
  intros. now apply d_minus.
Qed.
Lemma rd_mult : forall h k a b, rd h a -> rd k b -> rd (fun t => h t * k t) (a * k 0 + h 0 * b).
Proof.
  intros. apply (rd_two (fun h k t => h t * k t) h k a b); try assumption; [congruence|].
  intros f g F G <- <-. now apply d_mult.
Qed.
Lemma rd_div : forall h k a b, rd h a -> rd k b -> k 0 <> 0 ->
  rd (fun t => h t / k t) ((a * k 0 - h 0 * b) / (k 0 * k 0)).
Proof.
  intros h k a b H K Z. apply (rd_two (fun h k t => h t / k t) h k a b); try assumption; [congruence|].
  intros f g F G <- E. rewrite <- E in *. eapply der_eq; [apply d_div; eassumption|]. cbn. f_equal. ring.
Qed.
Lemma rd_opp : forall h a, rd h a -> rd (fun t => - h t) (- a).
Proof.
  intros h a H. apply (rd_eq _ (-1 * a)); [|ring]. apply (rd_comp Ropp h a (-1) H).
  eapply der_eq; [apply d_opp, d_id|]. ring.
Qed.

(** the curve stays on its side *)
Lemma rd_near : forall h a, rd h a -> forall eps, 0 < eps -> exists delta, 0 < delta /\ forall t, 0 <= t < delta -> Rabs (h t - h 0) < eps.
Proof.
  intros h a (g & d & D & Hg & E) eps Eps.
  assert (continuity_pt g 0) as C.
  { apply derivable_continuous_pt. exists a. now apply is_derive_Reals. }
  destruct (C eps Eps) as (d' & D' & Hd). cbn in Hd. unfold R_dist, D_x, no_cond in Hd.
  exists (Rmin d d'). split; [now apply Rmin_pos|].
  intros t T. assert (t < d) by (eapply Rlt_le_trans; [apply T|apply Rmin_l]).
  assert (t < d') by (eapply Rlt_le_trans; [apply T|apply Rmin_r]).
  rewrite <- (E t), <- (E 0) by lra. destruct (Req_dec t 0) as [->|N].
  - rewrite Rminus_diag_eq by reflexivity. now rewrite Rabs_R0.
  - apply Hd. split; [split; [exact I|lra]|]. rewrite Rabs_pos_eq; lra.
Qed.
Lemma rd_above : forall h a c, rd h a -> c < h 0 -> exists delta, 0 < delta /\ forall t, 0 <= t < delta -> c < h t.
Proof.
  intros h a c H C. destruct (rd_near h a H (h 0 - c) ltac:(lra)) as (d & D & Hd). exists d. split; [assumption|].
  intros t T. specialize (Hd t T). apply Rabs_def2 in Hd. lra.
Qed.
Lemma rd_below : forall h a c, rd h a -> h 0 < c -> exists delta, 0 < delta /\ forall t, 0 <= t < delta -> h t < c.
Proof.
  intros h a c H C. destruct (rd_near h a H (c - h 0) ltac:(lra)) as (d & D & Hd). exists d. split; [assumption|].
  intros t T. specialize (Hd t T). apply Rabs_def2 in Hd. lra.
Qed.

(** fabs, fmax, fmin at every point *)
Lemma rd_abs : forall h a, rd h a ->
  rd (fun t => Rabs (h t)) (if Rlt_dec 0 (h 0) then a else if Rlt_dec (h 0) 0 then - a else Rabs a).
Proof.
  intros h a H. destruct (Rlt_dec 0 (h 0)) as [P|P].
  - destruct (rd_above h a 0 H P) as (d & D & Hd). apply (rd_loc h _ a d D); [|exact H].
    intros t T. rewrite Rabs_pos_eq; [reflexivity|]. left. now apply Hd.
  - destruct (Rlt_dec (h 0) 0) as [N|N].
    + destruct (rd_below h a 0 H N) as (d & D & Hd). apply (rd_loc (fun t => - h t) _ (- a) d D); [|now apply rd_opp].
      intros t T. rewrite Rabs_left; [reflexivity|]. now apply Hd.
    + assert (h 0 = 0) as Z by lra. apply right_rd. apply rd_right in H. intros eps Eps.
      destruct (H eps Eps) as (d & D & Hd). exists d. split; [assumption|]. intros t T. specialize (Hd t T).
      rewrite Z, Rabs_R0 in *. rewrite Rminus_0_r in *.
      replace (Rabs (h t) / t) with (Rabs (h t / t)).
      * eapply Rle_lt_trans; [apply Rabs_triang_inv2|exact Hd].
      * unfold Rdiv. rewrite Rabs_mult, (Rabs_pos_eq (/ t)); [reflexivity|]. left. apply Rinv_0_lt_compat. lra.
Qed.
Lemma rd_max : forall h k a b, rd h a -> rd k b ->
  rd (fun t => Rmax (h t) (k t))
     (if Rlt_dec (h 0) (k 0) then b else if Rlt_dec (k 0) (h 0) then a else Rmax a b).
Proof.
  intros h k a b H K.
  pose proof (rd_abs _ _ (rd_minus h k a b H K)) as A. cbv beta in A.
  pose proof (rd_mult _ _ _ _ (rd_const (/ 2)) (rd_plus _ _ _ _ (rd_plus _ _ _ _ H K) A)) as B. cbv beta in B.
  eapply rd_ext; [|eapply rd_eq; [exact B|]].
  - intros t. cbv beta. unfold Rmax. destruct (Rle_dec (h t) (k t)).
    + rewrite Rabs_left1 by lra. lra.
    + rewrite Rabs_pos_eq by lra. lra.
  - cbv beta. destruct (Rlt_dec (h 0) (k 0)), (Rlt_dec 0 (h 0 - k 0)), (Rlt_dec (h 0 - k 0) 0), (Rlt_dec (k 0) (h 0)); try lra.
    rewrite Rmult_0_l, Rplus_0_l. unfold Rmax. destruct (Rle_dec a b); [rewrite Rabs_left1 by lra|rewrite Rabs_pos_eq by lra]; lra.
Qed.
Lemma rd_min : forall h k a b, rd h a -> rd k b ->
  rd (fun t => Rmin (h t) (k t))
     (if Rlt_dec (h 0) (k 0) then a else if Rlt_dec (k 0) (h 0) then b else Rmin a b).
Proof.
  intros h k a b H K.
  pose proof (rd_opp _ _ (rd_max _ _ _ _ (rd_opp _ _ H) (rd_opp _ _ K))) as B. cbv beta in B.
  eapply rd_ext; [|eapply rd_eq; [exact B|]].
  - intros t. cbv beta. unfold Rmax, Rmin. destruct (Rle_dec (- h t) (- k t)), (Rle_dec (h t) (k t)); lra.
  - destruct (Rlt_dec (- h 0) (- k 0)), (Rlt_dec (- k 0) (- h 0)), (Rlt_dec (h 0) (k 0)), (Rlt_dec (k 0) (h 0)); try lra.
    unfold Rmax, Rmin. destruct (Rle_dec (- a) (- b)), (Rle_dec a b); lra.
Qed.

(** the remaining elementary functions *)
Lemma der_tan : forall x, cos x <> 0 -> is_derive tan x (1 / (cos x * cos x)).
Proof.
  intros x H. unfold tan. eapply der_eq; [apply d_div; [apply der_sin|apply der_cos|exact H]|].
  pose proof (sin2_cos2 x) as S. unfold Rsqr in S. field_simplify_eq; [|assumption]. nra.
Qed.
Lemma der_sinh : forall x, is_derive sinh x (cosh x).
Proof. intros x. apply is_derive_Reals, derivable_pt_lim_sinh. Qed.
Lemma der_cosh : forall x, is_derive cosh x (sinh x).
Proof. intros x. apply is_derive_Reals, derivable_pt_lim_cosh. Qed.
Lemma cosh_pos : forall x, 0 < cosh x.
Proof. intros x. unfold cosh. pose proof (exp_pos x). pose proof (exp_pos (- x)). lra. Qed.
Lemma der_tanh : forall x, is_derive tanh x (1 / (cosh x * cosh x)).
Proof.
  intros x. unfold tanh. pose proof (cosh_pos x).
  eapply der_eq; [apply d_div; [apply der_sinh|apply der_cosh|lra]|].
  assert (cosh x * cosh x - sinh x * sinh x = 1) as E.
  { unfold cosh, sinh. transitivity (exp x * exp (- x)); [field|]. rewrite <- exp_plus, Rplus_opp_r. apply exp_0. }
  rewrite E. f_equal. ring.
Qed.
Lemma ln10_pos : 0 < ln 10.
Proof. rewrite <- ln_1. apply ln_increasing; lra. Qed.
Lemma der_log10 : forall x, 0 < x -> is_derive Rlog10 x (1 / (ln 10 * x)).
Proof.
  intros x H. unfold Rlog10. pose proof ln10_pos. eapply der_eq; [apply d_div; [apply der_ln; exact H|apply d_const|lra]|].
  cbv beta. field. lra.
Qed.
(** x ^ n *)
Lemma vpow_nat : forall n x, Rvpow x (INR (S n)) = x ^ S n.
Proof.
  intros n x. unfold Rvpow. destruct (Rlt_dec 0 x) as [P|P]; [now apply Rpower_pow|].
  destruct (Req_EM_T x 0) as [->|N].
  - destruct (Req_EM_T (INR (S n)) 0) as [E|_]; [|cbn; ring]. pose proof (pos_INR_nat_of_P 1). rewrite S_INR in E.
    pose proof (pos_INR n). lra.
  - assert (Int_part (INR (S n)) = Z.of_nat (S n)) as E.
    { apply floor_unique. rewrite <- INR_IZR_INZ. lra. }
    destruct (Req_EM_T (INR (S n)) (Rfloor (INR (S n)))) as [_|F].
    + rewrite E. symmetry. apply pow_powerRZ.
    + exfalso. apply F. unfold Rfloor. rewrite E. apply INR_IZR_INZ.
Qed.
Lemma vpow_0 : forall x, Rvpow x 0 = 1.
Proof.
  intros x. unfold Rvpow. destruct (Rlt_dec 0 x) as [P|P]; [now apply Rpower_O|].
  destruct (Req_EM_T x 0) as [->|N]; [destruct (Req_EM_T 0 0); [reflexivity|lra]|].
  assert (Int_part 0 = 0%Z) as E by (apply floor_unique; lra).
  unfold Rfloor. rewrite E. destruct (Req_EM_T 0 0); [reflexivity|lra].
Qed.
Lemma vpow_nat' : forall n x, Rvpow x (INR n) = x ^ n.
Proof. intros [|n] x; [apply vpow_0|apply vpow_nat]. Qed.
Lemma Int_part_pred : forall v, Int_part (v - 1) = (Int_part v - 1)%Z.
Proof.
  intros v. apply floor_unique. rewrite minus_IZR. pose proof (floor_spec v) as [A B]. unfold Rfloor in *. lra.
Qed.
Lemma vpow_pred : forall x v, 0 < x \/ (x < 0 /\ v = Rfloor v) -> Rvpow x v * v / x = v * Rvpow x (v - 1).
Proof.
  intros x v [P|[P Hv]].
  - unfold Rvpow. destruct (Rlt_dec 0 x); [|lra]. unfold Rminus. rewrite Rpower_plus, Rpower_Ropp, Rpower_1 by assumption.
    field. lra.
  - unfold Rvpow. destruct (Rlt_dec 0 x); [lra|]. destruct (Req_EM_T x 0); [lra|].
    destruct (Req_EM_T v (Rfloor v)); [|contradiction].
    unfold Rfloor in *. rewrite Int_part_pred, minus_IZR. destruct (Req_EM_T (v - 1) (IZR (Int_part v) - 1)); [|lra].
    unfold Zminus. rewrite powerRZ_add by lra. change (powerRZ x (Z.opp 1)) with (/ (x ^ 1)).
    rewrite pow_1. field. lra.
Qed.
Lemma der_vpow_r : forall x v, 0 < x \/ (x < 0 /\ v = Rfloor v) \/ (exists n, v = INR (S n)) ->
  is_derive (fun t => Rvpow t v) x (v * Rvpow x (v - 1)).
Proof.
  intros x v H. assert ((0 < x \/ (x < 0 /\ v = Rfloor v)) \/ (exists n, v = INR (S n))) as [P|(n & ->)] by tauto.
  - rewrite <- vpow_pred by assumption. now apply der_vpow.
  - eapply is_derive_ext; [intros t; symmetry; apply vpow_nat|].
    replace (INR (S n) - 1) with (INR n) by (rewrite S_INR; lra). rewrite vpow_nat'.
    eapply der_eq; [apply is_derive_pow, d_id|]. cbn [Init.Nat.pred]. ring.
Qed.
(** x ^ y in both arguments, x > 0 *)
Lemma rd_pow : forall h k a b, rd h a -> rd k b -> 0 < h 0 ->
  rd (fun t => Rvpow (h t) (k t)) (k 0 * Rvpow (h 0) (k 0 - 1) * a + ln (h 0) * Rvpow (h 0) (k 0) * b).
Proof.
  intros h k a b H K P. destruct (rd_above h a 0 H P) as (d & D & Hd).
  apply (rd_loc (fun t => exp (k t * ln (h t))) _ _ d D).
  { intros t T. unfold Rvpow. destruct (Rlt_dec 0 (h t)); [reflexivity|]. specialize (Hd t T). lra. }
  pose proof (rd_comp exp _ _ _ (rd_mult _ _ _ _ K (rd_comp ln h a (/ h 0) H (@der_ln _ P))) (der_exp _)) as E.
  cbv beta in E. eapply rd_eq; [exact E|].
  assert (exp (k 0 * ln (h 0)) = Rvpow (h 0) (k 0)) as Ev.
  { unfold Rvpow. destruct (Rlt_dec 0 (h 0)); [reflexivity|lra]. }
  rewrite Ev. rewrite <- (vpow_pred (h 0) (k 0)) by (now left). field. lra.
Qed.

(** atan2 *)
Lemma rd_atan2 : forall h k a b, rd h a -> rd k b -> 0 < k 0 \/ (k 0 < 0 /\ h 0 <> 0) ->
  rd (fun t => Ratan2 (h t) (k t)) ((a * k 0 - h 0 * b) / (k 0 * k 0 + h 0 * h 0)).
Proof.
  intros h k a b H K G.
  assert (k 0 <> 0) as Z by (destruct G as [G|[G _]]; lra).
  assert (rd (fun t => atan (h t / k t)) ((a * k 0 - h 0 * b) / (k 0 * k 0 + h 0 * h 0))) as E.
  { eapply rd_eq; [apply (rd_comp atan _ _ _ (rd_div h k a b H K Z) (der_atan _))|].
    cbv beta. field. repeat split; try exact Z; nra. }
  destruct G as [P|[P N]].
  - destruct (rd_above k b 0 K P) as (d & D & Hd). apply (rd_loc _ _ _ d D) with (2 := E).
    intros t T. unfold Ratan2. destruct (Rlt_dec 0 (k t)); [reflexivity|]. specialize (Hd t T). lra.
  - destruct (rd_below k b 0 K P) as (d & D & Hd).
    destruct (Rlt_dec 0 (h 0)) as [Ph|Ph].
    + destruct (rd_above h a 0 H Ph) as (d' & D' & Hd').
      apply (rd_loc (fun t => atan (h t / k t) + PI) _ _ (Rmin d d')); [now apply Rmin_pos| |].
      * intros t T. assert (t < d) by (eapply Rlt_le_trans; [apply T|apply Rmin_l]).
        assert (t < d') by (eapply Rlt_le_trans; [apply T|apply Rmin_r]).
        specialize (Hd t ltac:(lra)). specialize (Hd' t ltac:(lra)). unfold Ratan2.
        destruct (Rlt_dec 0 (k t)); [lra|]. destruct (Rlt_dec (k t) 0); [|lra]. destruct (Rlt_dec (h t) 0); [lra|reflexivity].
      * eapply rd_eq; [apply (rd_plus _ _ _ _ E (rd_const PI))|]. ring.
    + destruct (rd_below h a 0 H ltac:(lra)) as (d' & D' & Hd').
      apply (rd_loc (fun t => atan (h t / k t) - PI) _ _ (Rmin d d')); [now apply Rmin_pos| |].
      * intros t T. assert (t < d) by (eapply Rlt_le_trans; [apply T|apply Rmin_l]).
        assert (t < d') by (eapply Rlt_le_trans; [apply T|apply Rmin_r]).
        specialize (Hd t ltac:(lra)). specialize (Hd' t ltac:(lra)). unfold Ratan2.
        destruct (Rlt_dec 0 (k t)); [lra|]. destruct (Rlt_dec (k t) 0); [|lra]. destruct (Rlt_dec (h t) 0); [reflexivity|lra].
      * eapply rd_eq; [apply (rd_minus _ _ _ _ E (rd_const PI))|]. ring.
Qed.
