(** C20: the traceless forward mode computes values and directional derivatives. *)
From Coq Require Import List Arith Bool Lia Reals Lra.
From Coquelicot Require Import Coquelicot.
From Verif Require Import AdReal AdDeriv TlModel TlSpec TlDeriv TlProofs.
Unset Asymmetric Patterns.
Local Open Scope R_scope.

Section C20.
Variables nan inf : R.
Variable nd : nat.

(** ** Values *)
Lemma plain_value_ext : forall d d' x, (forall o, d o = d' o) -> plain_value d x = plain_value d' x.
Proof. intros d d' [o|v] H; [apply H|reflexivity]. Qed.
Lemma put_ext : forall d d' t v v', (forall o, d o = d' o) -> v = v' -> forall o, put d t v o = put d' t v' o.
Proof. intros d d' t v v' H -> o. unfold put. destruct (o =? t)%nat; [reflexivity|apply H]. Qed.
Lemma plain_step_ext : forall s d d', (forall o, d o = d' o) -> forall o, plain_step s d o = plain_step s d' o.
Proof.
  intros s d d' H. destruct s; cbn [plain_step]; rewrite ?H; try (apply put_ext; [assumption|reflexivity]);
    try (destruct g; apply put_ext; try reflexivity; try assumption; now apply put_ext);
    try (apply put_ext; [|reflexivity]; now apply put_ext).
Qed.
Lemma plain_run_ext : forall p d d', (forall o, d o = d' o) -> forall o, plain_run p d o = plain_run p d' o.
Proof.
  induction p as [|s p IH|c x y p IHp q IHq]; intros d d' H o; cbn [plain_run].
  - apply H.
  - apply IH. now apply plain_step_ext.
  - rewrite (plain_value_ext d d' x H), (plain_value_ext d d' y H). destruct compare; [now apply IHp|now apply IHq].
Qed.

Theorem C20_values : forall p M, legal p ->
  forall o, getValue (run nan inf nd p M) o = plain_run p (getValue M) o.
Proof.
  induction p as [|s p IH|c x y p IHp q IHq]; intros M L o; cbn [run plain_run legal] in *.
  - reflexivity.
  - destruct L as [L1 L2]. rewrite IH by assumption. apply plain_run_ext. intros o'. now apply step_values.
  - destruct L as [L1 L2].
    assert (forall z, value M z = plain_value (getValue M) z) as E by (intros []; reflexivity).
    rewrite !E. destruct compare; [now apply IHp|now apply IHq].
Qed.

(** ** Derivatives *)
Lemma good_ext : forall p clean clean' d d', (forall o, clean o <-> clean' o) -> (forall o, d o = d' o) ->
  good p clean d -> good p clean' d' /\ (forall o, cleans p clean d o <-> cleans p clean' d' o).
Proof.
  induction p as [|s p IH|c x y p IHp q IHq]; intros clean clean' d d' C H G; cbn [good cleans] in *.
  - split; [exact I|exact C].
  - destruct G as [G1 G2].
    assert (good_step s clean' d') as G1'.
    { destruct s; cbn [good_step] in *; rewrite <- ?H, <- ?C; assumption. }
    destruct (IH (clean_after s clean) (clean_after s clean') (plain_step s d) (plain_step s d')) as [P Q].
    + intros o. destruct s; cbn [clean_after]; rewrite ?C; reflexivity.
    + now apply plain_step_ext.
    + assumption.
    + split; [split; assumption|exact Q].
  - rewrite <- (plain_value_ext d d' x H), <- (plain_value_ext d d' y H).
    destruct G as (G1 & G2 & G3 & G4).
    assert (clean_operand clean' x) by (destruct x; cbn [clean_operand] in *; rewrite <- ?C; assumption).
    assert (clean_operand clean' y) by (destruct y; cbn [clean_operand] in *; rewrite <- ?C; assumption).
    destruct compare.
    + destruct (IHp clean clean' d d' C H G4) as [P Q]. split; [now repeat split|exact Q].
    + destruct (IHq clean clean' d d' C H G4) as [P Q]. split; [now repeat split|exact Q].
Qed.

Lemma tied_value : forall i clean M X x, tied i clean M X -> clean_operand clean x ->
  exists l, rd (fun s => plain_value (X s) x) l.
Proof.
  intros i clean M X [o|v] [V D] C; cbn [plain_value clean_operand] in *.
  - exists (M o i). now apply D.
  - exists 0. apply rd_const.
Qed.
Lemma compare_locally : forall c h k l l', rd h l -> rd k l' -> h 0 <> k 0 ->
  exists e, 0 < e /\ forall t, 0 <= t < e -> compare c (h t) (k t) = compare c (h 0) (k 0).
Proof.
  intros c h k l l' H K N. pose proof (rd_minus _ _ _ _ H K) as D.
  assert (forall a b, a <> b -> forall x y, x <> y -> (a < b <-> x < y) -> compare c a b = compare c x y) as Cm.
  { intros a b A x y B E. unfold compare, Reqb, Rleb, Rltb.
    destruct c; repeat match goal with
     | |- context [Req_EM_T ?a ?b] => destruct (Req_EM_T a b)
     | |- context [Rle_dec ?a ?b] => destruct (Rle_dec a b)
     | |- context [Rlt_dec ?a ?b] => destruct (Rlt_dec a b) end; try reflexivity; exfalso; try contradiction;
     destruct (Rtotal_order a b) as [O|[O|O]]; try contradiction; destruct (Rtotal_order x y) as [O'|[O'|O']]; try contradiction; try lra;
     try (apply E in O; lra); try (apply E in O'; lra). }
  destruct (Rtotal_order (h 0) (k 0)) as [O|[O|O]]; [|contradiction|].
  - destruct (rd_below _ _ 0 D ltac:(cbv beta; lra)) as (e & E & He). exists e. split; [exact E|].
    intros t T. specialize (He t T). cbv beta in He. apply Cm; lra.
  - destruct (rd_above _ _ 0 D ltac:(cbv beta; lra)) as (e & E & He). exists e. split; [exact E|].
    intros t T. specialize (He t T). cbv beta in He. apply Cm; lra.
Qed.

Lemma run_tied : forall p i clean M X, (1 <= i <= nd)%nat -> tied i clean M X -> good p clean (X 0) ->
  tied i (cleans p clean (X 0)) (run nan inf nd p M) (fun u => plain_run p (X u)).
Proof.
  induction p as [|s p IH|c x y p IHp q IHq]; intros i clean M X I T G; cbn [run plain_run good cleans] in *.
  - exact T.
  - destruct G as [G1 G2]. apply (IH i (clean_after s clean) (step nan inf nd s M) (fun u => plain_step s (X u)) I); [|exact G2].
    now apply step_tied.
  - destruct G as (G1 & G2 & G3 & G4). pose proof T as [V D].
    assert (forall z, value M z = plain_value (X 0) z) as E by (intros []; cbn [value plain_value]; [now rewrite V|reflexivity]).
    rewrite !E.
    destruct (tied_value _ _ _ _ _ T G1) as [l L]. destruct (tied_value _ _ _ _ _ T G2) as [l' L'].
    destruct (compare_locally c _ _ _ _ L L' G3) as (e & Pe & He). cbv beta in He.
    destruct (compare c (plain_value (X 0) x) (plain_value (X 0) y)).
    + destruct (IHp i clean M X I T G4) as [P Q]. split; [intros o; rewrite (He 0) by lra; apply P|].
      intros o O. apply (rd_loc (fun s => plain_run p (X s) o) _ _ e Pe); [|now apply Q].
      intros t Ht. now rewrite (He t Ht).
    + destruct (IHq i clean M X I T G4) as [P Q]. split; [intros o; rewrite (He 0) by lra; apply P|].
      intros o O. apply (rd_loc (fun s => plain_run q (X s) o) _ _ e Pe); [|now apply Q].
      intros t Ht. now rewrite (He t Ht).
Qed.

(** Along any curve t -> X t of inputs that starts at the stored values and leaves them
    with the stored derivatives (direction q), the program leaves with the derivatives
    that getADValue then returns. *)
Theorem C20_derivatives : forall p M (X : R -> store) q (clean : nat -> Prop), (q < nd)%nat ->
  (forall o, X 0 o = getValue M o) ->
  (forall o, clean o -> exists d, getADValue nd M o q = Some d /\ right_derivative (fun t => X t o) d) ->
  good p clean (X 0) ->
  forall o, cleans p clean (X 0) o ->
    getValue (run nan inf nd p M) o = plain_run p (X 0) o /\
    exists d, getADValue nd (run nan inf nd p M) o q = Some d /\
              right_derivative (fun t => plain_run p (X t) o) d.
Proof.
  intros p M X q clean Q V D G o O.
  assert (tied (q + 1) clean M X) as T.
  { split; [exact V|]. intros o' O'. destruct (D o' O') as (d & E & H). unfold getADValue in E.
    rewrite (proj2 (Nat.leb_gt nd q) Q) in E. injection E as <-. now apply right_rd. }
  destruct (run_tied p (q + 1) clean M X ltac:(lia) T G) as [P R]. split.
  - symmetry. apply P.
  - exists (run nan inf nd p M o (q + 1)%nat). split.
    + unfold getADValue. now rewrite (proj2 (Nat.leb_gt nd q) Q).
    + apply rd_right, R, O.
Qed.

(** two-sided derivatives: if the result has one, it is the one computed *)
Lemma right_unique : forall h l l', right_derivative h l -> right_derivative h l' -> l = l'.
Proof.
  intros h l l' A B. destruct (Req_dec l l') as [E|N]; [exact E|exfalso].
  assert (0 < Rabs (l - l') / 2) as P by (pose proof (Rabs_pos_lt (l - l') ltac:(lra)); lra).
  destruct (A _ P) as (d & D & Hd). destruct (B _ P) as (d' & D' & Hd').
  assert (0 < Rmin d d' / 2) by (unfold Rmin; destruct (Rle_dec d d'); lra).
  assert (Rmin d d' / 2 < d /\ Rmin d d' / 2 < d') as [M1 M2] by (unfold Rmin; destruct (Rle_dec d d'); lra).
  specialize (Hd (Rmin d d' / 2) ltac:(lra)). specialize (Hd' (Rmin d d' / 2) ltac:(lra)).
  set (z := (h (Rmin d d' / 2) - h 0) / (Rmin d d' / 2)) in *.
  pose proof (Rabs_triang (z - l') (- (z - l))) as Tr. rewrite Rabs_Ropp in Tr.
  replace (z - l' + - (z - l)) with (l - l') in Tr by ring. lra.
Qed.
Lemma lim_right : forall h l, derivable_pt_lim h 0 l -> right_derivative h l.
Proof.
  intros h l H eps E. destruct (H eps E) as [d Hd]. exists d. split; [apply cond_pos|].
  intros t T. specialize (Hd t ltac:(lra) ltac:(rewrite Rabs_right; lra)). now rewrite Rplus_0_l in Hd.
Qed.
Theorem C20_two_sided : forall p M (X : R -> store) q (clean : nat -> Prop) o l, (q < nd)%nat ->
  (forall o, X 0 o = getValue M o) ->
  (forall o, clean o -> exists d, getADValue nd M o q = Some d /\ right_derivative (fun t => X t o) d) ->
  good p clean (X 0) -> cleans p clean (X 0) o ->
  derivable_pt_lim (fun t => plain_run p (X t) o) 0 l ->
  getADValue nd (run nan inf nd p M) o q = Some l.
Proof.
  intros p M X q clean o l Q V D G O L.
  destruct (C20_derivatives p M X q clean Q V D G o O) as (_ & d & E & H).
  rewrite E. f_equal. apply (right_unique _ _ _ H). now apply lim_right.
Qed.

(** getters and setters *)
Theorem C20_getset : forall M o o' p q v,
  (setADValue nd M o p v = None <-> (nd <= p)%nat) /\ (getADValue nd M o p = None <-> (nd <= p)%nat) /\
  forall M', setADValue nd M o p v = Some M' ->
    getADValue nd M' o p = Some v /\ getValue M' o' = getValue M o' /\
    ((o', q) <> (o, p) -> getADValue nd M' o' q = getADValue nd M o' q) /\
    getValue (setValue M o v) o = v /\ getADValue nd (setValue M o v) o' q = getADValue nd M o' q.
Proof.
  intros M o o' p q v. unfold setADValue, getADValue, getValue, setValue.
  destruct (Nat.leb_spec nd p) as [A|A].
  - split; [tauto|]. split; [tauto|]. discriminate.
  - split; [split; [discriminate|lia]|]. split; [split; [discriminate|lia]|].
    intros M' E. injection E as <-. rewrite upd_at. split; [reflexivity|]. rewrite upd_i by lia. split; [reflexivity|].
    split; [|split].
    + intros N. destruct (Nat.leb_spec nd q); [reflexivity|]. destruct (Nat.eq_dec o' o) as [->|No].
      * rewrite upd_i; [reflexivity|]. intros E. apply N. f_equal. lia.
      * now rewrite upd_o.
    + apply prim_at.
    + destruct (Nat.leb_spec nd q); [reflexivity|]. now rewrite prim_i by lia.
Qed.
Theorem C20_setADValues : forall M o v q, (q < nd)%nat ->
  getADValue nd (setADValues nd M o v) o q = Some (v q) /\
  (forall o', getValue (setADValues nd M o v) o' = getValue M o') /\
  (forall o' q', o' <> o -> getADValue nd (setADValues nd M o v) o' q' = getADValue nd M o' q').
Proof.
  intros M o v q Q. unfold setADValues, getADValue, getValue. rewrite (proj2 (Nat.leb_gt nd q) Q). split; [|split].
  - cells. do 2 f_equal. lia.
  - intros o'. destruct (Nat.eq_dec o' o) as [->|N]; cells; reflexivity.
  - intros o' q' N. destruct (Nat.leb_spec nd q'); [reflexivity|]. cells. reflexivity.
Qed.
End C20.

(** ** A program that meets the hypotheses: z = exp(sin(x) * x) in a branch, at x = 2 *)
Definition sample : prog :=
  Do (Call1 Sin 1 0) (Do (Call2 Mul 2 1 0)
    (If Cgt (Obj 0) (Dbl 1) (Do (Call1 Exp 3 2) (Do (Comp AOver 3 0) Done)) Done)).
Definition sample_mem : mem := fun o i => match o, i with 0%nat, 0%nat => 2 | 0%nat, 1%nat => 5 | _, _ => 7 end.
Definition sample_curve (t : R) : store := fun o => match o with 0%nat => 2 + 5 * t | _ => 7 end.
Theorem C20_nontrivial : 
  (forall o, sample_curve 0 o = getValue sample_mem o) /\
  (forall o, o = 0%nat -> exists d, getADValue 1 sample_mem o 0 = Some d /\ right_derivative (fun t => sample_curve t o) d) /\
  good sample (fun o => o = 0%nat) (sample_curve 0) /\ cleans sample (fun o => o = 0%nat) (sample_curve 0) 3%nat /\
  (forall t, 0 <= t -> plain_run sample (sample_curve t) 3%nat = exp (sin (2 + 5 * t) * (2 + 5 * t)) / (2 + 5 * t)).
Proof.
  assert (forall t, 0 <= t -> compare Cgt (2 + 5 * t) 1 = true) as Cm.
  { intros t T. unfold compare, Rltb. destruct (Rlt_dec 1 (2 + 5 * t)); [reflexivity|lra]. }
  split; [|split; [|split; [|split]]].
  - intros [|o]; unfold getValue; cbn [sample_curve sample_mem]; [ring|reflexivity].
  - intros o ->. exists 5. split; [reflexivity|]. intros eps E. exists 1. split; [lra|]. intros t T. cbn [sample_curve].
    replace ((2 + 5 * t - (2 + 5 * 0)) / t - 5) with 0 by (field; lra). now rewrite Rabs_R0.
  - cbn [sample good good_step clean_after clean_operand plain_value plain_step smooth1 smooth2 smooth_arith]. unfold put. cbn [Nat.eqb sample_curve].
    rewrite Cm by lra. repeat split; try tauto; try lra; try discriminate.
  - cbn [sample cleans clean_after plain_value plain_step]. unfold put. cbn [Nat.eqb sample_curve]. rewrite Cm by lra. tauto.
  - intros t T. cbn [sample plain_run plain_value plain_step plain1 plain2 plain_arith]. unfold put. cbn [Nat.eqb sample_curve]. rewrite Cm by lra.
    reflexivity.
Qed.

(** ** Refutations *)
(** atan2(a, b) at b = 0: the derivative returned is 0 although atan2 is differentiable
    there (lines 575-578): atan2(1, t) has derivative -1 at t = 0 *)
Definition at2_mem : mem := fun o i => match o, i with 0%nat, 0%nat => 1 | 1%nat, 1%nat => 1 | _, _ => 0 end.
Definition at2_curve (t : R) : store := fun o => match o with 0%nat => 1 | 1%nat => t | _ => 0 end.
Lemma der_at2 : derivable_pt_lim (fun t => Ratan2 1 t) 0 (-1).
Proof.
  apply is_derive_Reals. apply (is_derive_ext (fun t => PI / 2 - atan t)).
  - intros t. unfold Ratan2. destruct (Rlt_dec 0 t) as [P|P].
    + pose proof (atan_inv t P) as A. unfold Rdiv in *. rewrite Rmult_1_l. lra.
    + destruct (Rlt_dec t 0) as [N|N].
      * destruct (Rlt_dec 1 0); [lra|].
        pose proof (atan_inv (- t) ltac:(lra)) as A. 
        replace (/ - t) with (- (1 / t)) in A by (field; lra). rewrite !atan_opp in A. lra.
      * assert (t = 0) as -> by lra. rewrite atan_0. destruct (Rlt_dec 0 1); [lra|lra].
  - apply is_derive_Reals.
    replace (-1) with (0 - / (1 + 0 ^ 2)) by field.
    exact (derivable_pt_lim_minus (fun _ => PI / 2) atan 0 _ _ (derivable_pt_lim_const (PI / 2) 0) (derivable_pt_lim_atan 0)).
Qed.
Theorem C20_atan2_refuted :
  exists p M (X : R -> store) (clean : nat -> Prop) o l,
    legal p /\ (forall o, X 0 o = getValue M o) /\ clean 0%nat /\ clean 1%nat /\ p = Do (Call2 Atan2 o 0 1) Done /\
    (forall o, clean o -> exists d, getADValue 1 M o 0 = Some d /\ derivable_pt_lim (fun t => X t o) 0 d) /\
    derivable_pt_lim (fun t => plain_run p (X t) o) 0 l /\ l <> 0 /\
    forall nan inf, getADValue 1 (run nan inf 1 p M) o 0 = Some 0.
Proof.
  exists (Do (Call2 Atan2 2 0 1) Done), at2_mem, at2_curve, (fun o => (o <= 1)%nat), 2%nat, (-1).
  split; [|split; [|split; [|split; [|split; [|split; [|split; [|split]]]]]]].
  - cbn. repeat split; discriminate.
  - intros [|[|o]]; reflexivity.
  - lia.
  - lia.
  - reflexivity.
  - intros [|[|o]] O; [exists 0|exists 1|lia]; (split; [reflexivity|]); cbn [at2_curve].
    + apply derivable_pt_lim_const.
    + apply derivable_pt_lim_id.
  - cbn [plain_run plain_step plain2]. unfold put. cbn [Nat.eqb at2_curve]. exact der_at2.
  - lra.
  - intros nan inf. unfold getADValue. cbn [Nat.leb run step call2]. f_equal. cbv beta zeta.
    rewrite !(prim_o _ 2 _ 1 0), !(prim_o _ 2 _ 0 0) by discriminate. unfold ctor. rewrite !(prim_o _ 2 _ 1 0), !(prim_o _ 2 _ 0 0) by discriminate.
    cbn [at2_mem].
    destruct (Req_EM_T (0 * 0 / (1 * 1 + 0 * 0)) 0) as [E|E].
    + unfold dirs. cbn [seq fold_left Nat.add]. apply upd_at.
    + exfalso. apply E. field.
Qed.

(** adouble x; the derivatives of a default-constructed object are whatever was in memory
    (lines 282-289), although its value is the constant 0 *)
Theorem C20_default_ctor_refuted : forall g, exists M o, forall nan inf,
  getValue (run nan inf 1 (Do (New o) Done) M) o = 0 /\
  getADValue 1 (run nan inf 1 (Do (New o) Done) M) o 0 = Some g.
Proof.
  intros g. exists (fun _ _ => g), 0%nat. intros. split; reflexivity.
Qed.
