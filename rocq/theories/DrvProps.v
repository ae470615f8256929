(** C26: the easy-to-use drivers. *)
From Coq Require Import ZArith Reals List Lia Lra Bool.
From Coquelicot Require Import Coquelicot.
From Verif Require Import DrvModel DrvSpec.
Local Open Scope R_scope.

Lemma weighted_ext : forall m u u' y y', (forall j, (j < m)%nat -> u j * y j = u' j * y' j) -> weighted m u y = weighted m u' y'.
Proof. induction m as [|m IH]; intros u u' y y' H; cbn; [reflexivity|]. rewrite (IH u u' y y'), (H m) by (intros; try apply H; lia). reflexivity. Qed.
Lemma weighted_unit : forall m l y, (l < m)%nat -> weighted m (fun j => if (l =? j)%nat then 1 else 0) y = y l.
Proof.
  induction m as [|m IH]; intros l y L; [lia|]. cbn [weighted]. destruct (Nat.eqb_spec l m) as [->|N].
  - rewrite (weighted_ext m _ (fun _ => 0) y (fun _ => 0)).
    + assert (weighted m (fun _ => 0) (fun _ => 0) = 0) as -> by (clear; induction m; cbn; [reflexivity|rewrite IHm; ring]). ring.
    + intros j J. destruct (Nat.eqb_spec m j); [lia|ring].
  - rewrite IH by lia. ring.
Qed.
Lemma weighted_one : forall u y, weighted 1 u y = u 0%nat * y 0%nat.
Proof. intros. cbn. ring. Qed.
Lemma partial_ext : forall h h' x i d, (forall y, h y = h' y) -> partial h x i d -> partial h' x i d.
Proof. intros h h' x i d E. unfold partial, directional. apply is_derive_ext. intros. apply E. Qed.
Lemma second_ext : forall h h' x v i d, (forall y, h y = h' y) -> second h x v i d -> second h' x v i d.
Proof.
  intros h h' x v i d E H g (eps & Hg). apply H. exists eps. intros t T. apply (partial_ext h'); [intros; symmetry; apply E|auto].
Qed.
Lemma mindec_neg : forall a b, (0 <= mindec a b)%Z -> (0 <= a)%Z /\ (0 <= b)%Z.
Proof. intros a b. unfold mindec. destruct (Z.ltb_spec b a); lia. Qed.
Lemma mindec_min : forall a b, mindec a b = Z.min a b.
Proof. intros a b. unfold mindec. destruct (Z.ltb_spec b a); lia. Qed.

Section Props.
Variables (F : vec -> vec) (s : sweeps).
Let m := deps s.
Let n := inds s.

Lemma shape_ok : forall a b, a = deps s -> b = inds s -> shape s a b = true.
Proof. intros a b -> ->. unfold shape. now rewrite !Nat.eqb_refl. Qed.

(** function: the value of F; entries behind the m results are untouched *)
Theorem C26_function : forall x r k, exact1 F s x -> exists rc r' k', function s m n x r k = Some (rc, r', k') /\ rc = fst (zos s x) /\
  ((0 <= rc)%Z -> forall j, (j < m)%nat -> r' j = F x j) /\ (forall j, (m <= j)%nat -> r' j = r j).
Proof.
  intros x r k E. unfold function, run_zos. rewrite shape_ok by reflexivity. destruct (zos s x) as [rc y] eqn:Z.
  do 3 eexists. split; [reflexivity|]. split; [reflexivity|]. unfold fill. split.
  - intros R j J. rewrite (proj2 (Nat.ltb_lt _ _) J). exact (zos_ok _ _ _ E rc y Z R j J).
  - intros j J. destruct (Nat.ltb_spec j m); [lia|reflexivity].
Qed.

(** gradient, for a scalar function of n >= 1 arguments *)
Theorem C26_gradient : forall x r k, exact1 F s x -> m = 1%nat -> (1 <= n)%nat -> exists rc g k', gradient s n x r k = Some (rc, g, k') /\
  ((0 <= rc)%Z -> forall i, (i < n)%nat -> partial (fun x => F x 0%nat) x i (g i)) /\ (forall i, (n <= i)%nat -> g i = r i).
Proof.
  intros x r k E M N. unfold gradient, run_zos. rewrite shape_ok by (try reflexivity; symmetry; exact M).
  destruct (zos s x) as [rc y] eqn:Zx. destruct (Nat.ltb_spec n 1); [lia|]. destruct (Z.ltb_spec rc 0) as [L|L].
  - do 3 eexists. split; [reflexivity|]. split; [lia|]. intros i I. unfold fill. destruct (Nat.ltb_spec i 1); [lia|reflexivity].
  - unfold run_rev1. rewrite shape_ok by (try reflexivity; symmetry; exact M). destruct (rev1 s x (fun _ => 1)) as [rc' z] eqn:Zr.
    do 3 eexists. split; [reflexivity|]. split.
    + intros R i I. apply mindec_neg in R. unfold fill at 1. rewrite (proj2 (Nat.ltb_lt _ _) I).
      pose proof (rev1_ok _ _ _ E _ _ _ ltac:(rewrite Zx; exact L) Zr ltac:(lia) i I) as P. eapply partial_ext; [|exact P].
      intros w. cbv beta. fold m. rewrite M, weighted_one. ring.
    + intros i I. unfold fill. destruct (Nat.ltb_spec i n); [lia|]. destruct (Nat.ltb_spec i 1); [lia|reflexivity].
Qed.

(** vec_jac without repetition: u^T J *)
Theorem C26_vec_jac : forall x u r k, exact1 F s x -> exists rc z k', vec_jac s m n false x u r k = Some (rc, z, k') /\
  ((0 <= rc)%Z -> k' = point x /\ forall i, (i < n)%nat -> partial (fun x => weighted m u (F x)) x i (z i)) /\ (forall i, (n <= i)%nat -> z i = r i).
Proof.
  intros x u r k E. unfold vec_jac, run_zos. rewrite shape_ok by reflexivity. destruct (zos s x) as [rc y] eqn:Zx. cbn [negb andb].
  destruct (Z.ltb_spec rc 0) as [L|L].
  - do 3 eexists. split; [reflexivity|]. split; [lia|]. reflexivity.
  - unfold run_rev1. rewrite shape_ok by reflexivity. destruct (rev1 s x u) as [rc' z] eqn:Zr.
    do 3 eexists. split; [reflexivity|]. split.
    + intros R. apply mindec_neg in R. split; [reflexivity|]. intros i I. unfold fill. rewrite (proj2 (Nat.ltb_lt _ _) I).
      exact (rev1_ok _ _ _ E _ _ _ ltac:(rewrite Zx; exact L) Zr ltac:(lia) i I).
    + intros i I. unfold fill. destruct (Nat.ltb_spec i n); [lia|reflexivity].
Qed.
(** vec_jac with repetition returns the row at the stored point, but its return code is
    negative even if the sweep succeeded: the user cannot tell success from failure *)
Theorem C26_vec_jac_repeat_refuted : forall x0 x u r, exact1 F s x0 -> (0 <= fst (zos s x0))%Z -> exists rc z, vec_jac s m n true x u r (point x0) = Some (rc, z, point x0) /\
  (rc < 0)%Z /\
  ((0 <= fst (rev1 s x0 u))%Z -> rc = (-1)%Z /\ forall i, (i < n)%nat -> partial (fun x => weighted m u (F x)) x0 i (z i)).
Proof.
  intros x0 x u r E L. unfold vec_jac. cbn [negb andb]. unfold run_rev1. rewrite shape_ok by reflexivity. destruct (rev1 s x0 u) as [rc' z] eqn:Zr.
  do 2 eexists. split; [reflexivity|]. rewrite mindec_min. split; [lia|]. cbn [fst]. intros R. split; [lia|].
  intros i I. unfold fill. rewrite (proj2 (Nat.ltb_lt _ _) I). exact (rev1_ok _ _ _ E _ _ _ L Zr R i I).
Qed.

(** jacobian: row j, column i is the derivative of result j with respect to argument i,
    for every shape (forward or reverse is chosen by the shape); nothing else is written *)
Theorem C26_jacobian : forall x J k, exact1 F s x -> exists rc J' k', jacobian s m n x J k = Some (rc, J', k') /\
  ((0 <= rc)%Z -> forall j i, (j < m)%nat -> (i < n)%nat -> partial (fun x => F x j) x i (J' j i)) /\
  (forall j i, (m <= j)%nat \/ (n <= i)%nat -> J' j i = J j i).
Proof.
  intros x J k E. unfold jacobian.
  assert (forall Y j i, (j < m)%nat -> (i < n)%nat -> window J m n 0 Y j i = Y j i) as W1.
  { intros Y j i A B. unfold window. rewrite (proj2 (Nat.ltb_lt _ _) A). cbn [andb Nat.leb Nat.add]. rewrite (proj2 (Nat.ltb_lt _ _) B). now rewrite Nat.sub_0_r. }
  assert (forall Y j i, (m <= j)%nat \/ (n <= i)%nat -> window J m n 0 Y j i = J j i) as W2.
  { intros Y j i A. unfold window. destruct (Nat.ltb_spec j m), (Nat.leb_spec 0 i), (Nat.ltb_spec i (0 + n)); cbn [andb]; try reflexivity; lia. }
  destruct (Nat.ltb_spec (n / 2) m) as [C|C].
  - rewrite shape_ok by reflexivity. destruct (fov s n x unit_matrix) as [[rc y] Y] eqn:Zf. do 3 eexists. split; [reflexivity|]. split.
    + intros R j i A B. rewrite W1 by assumption. apply (fov_ok _ _ _ E _ _ _ _ _ Zf R j A). exact B.
    + intros j i A. now apply W2.
  - unfold run_zos. rewrite shape_ok by reflexivity. destruct (zos s x) as [rc y] eqn:Zx. destruct (Z.ltb_spec rc 0) as [L|L].
    + do 3 eexists. split; [reflexivity|]. split; [lia|reflexivity].
    + unfold run_revv. rewrite shape_ok by reflexivity. destruct (revv s x m unit_matrix) as [rc' Y] eqn:Zr. do 3 eexists. split; [reflexivity|]. split.
      * intros R j i A B. apply mindec_neg in R. rewrite W1 by assumption.
        eapply partial_ext; [|apply (revv_ok _ _ _ E _ _ _ _ ltac:(rewrite Zx; exact L) Zr ltac:(lia) j i A B)]. intros w. cbv beta. apply weighted_unit. exact A.
      * intros j i A. now apply W2.
Qed.

(** jac_vec: J v *)
Theorem C26_jac_vec : forall x v r k, exact1 F s x -> exists rc yd k', jac_vec s m n x v r k = Some (rc, yd, k') /\
  ((0 <= rc)%Z -> forall j, (j < m)%nat -> directional (fun x => F x j) x v (yd j)) /\ (forall j, (m <= j)%nat -> yd j = r j).
Proof.
  intros x v r k E. unfold jac_vec. rewrite shape_ok by reflexivity. destruct (fos s x v) as [[rc y] yd] eqn:Zf. do 3 eexists. split; [reflexivity|]. split.
  - intros R j J. unfold fill. rewrite (proj2 (Nat.ltb_lt _ _) J). apply (fos_ok _ _ _ E _ _ _ _ Zf R j J).
  - intros j J. unfold fill. destruct (Nat.ltb_spec j m); [lia|reflexivity].
Qed.

(** lagra_hess_vec: derivative in direction v of the gradient of u . F *)
Theorem C26_lagra_hess_vec : forall x v u r k, exact2 F s x -> exists rc w k', lagra_hess_vec s m n x v u r k = Some (rc, w, k') /\
  ((0 <= rc)%Z -> forall i, (i < n)%nat -> second (fun x => weighted m u (F x)) x v i (w i)) /\ (forall i, (n <= i)%nat -> w i = r i).
Proof.
  intros x v u r k E. unfold lagra_hess_vec. rewrite shape_ok by reflexivity. destruct (fos s x v) as [[rc y] yd] eqn:Zf. destruct (Z.ltb_spec rc 0) as [L|L].
  - do 3 eexists. split; [reflexivity|]. split; [lia|reflexivity].
  - destruct (rev2 s x v u) as [rc' X] eqn:Zr. do 3 eexists. split; [reflexivity|]. split.
    + intros R i I. apply mindec_neg in R. unfold fill. rewrite (proj2 (Nat.ltb_lt _ _) I). apply (rev2_ok _ _ _ E _ _ _ _ ltac:(rewrite Zf; exact L) Zr ltac:(lia) i I).
    + intros i I. unfold fill. destruct (Nat.ltb_spec i n); [lia|reflexivity].
Qed.

(** hess_vec: H v *)
Theorem C26_hess_vec : forall x v r k, exact2 F s x -> m = 1%nat -> exists rc w k', hess_vec s n x v r k = Some (rc, w, k') /\
  ((0 <= rc)%Z -> forall i, (i < n)%nat -> second (fun x => F x 0%nat) x v i (w i)) /\ (forall i, (n <= i)%nat -> w i = r i).
Proof.
  intros x v r k E M. unfold hess_vec. destruct (C26_lagra_hess_vec x v (fun _ => 1) r k E) as (rc & w & k' & A & B & C). rewrite M in A, B.
  exists rc, w, k'. split; [exact A|]. split; [|exact C]. intros R i I. eapply second_ext; [|exact (B R i I)]. intros y. cbv beta. rewrite weighted_one. ring.
Qed.

(** hess_mat: column l of the result is H times column l of V *)
Theorem C26_hess_mat : forall q x V W k, exact2 F s x -> m = 1%nat -> (0 <= hov s q x (fun i j _ => V i j))%Z ->
  exists rc W' k', hess_mat s n q x V W k = Some (rc, W', k') /\
  ((0 <= rc)%Z -> forall i l, (i < n)%nat -> (l < q)%nat -> second (fun x => F x 0%nat) x (fun j => V j l) i (W' i l)) /\
  (forall i l, (n <= i)%nat \/ (q <= l)%nat -> W' i l = W i l).
Proof.
  intros q x V W k E M Hh. unfold hess_mat. rewrite shape_ok by (try reflexivity; symmetry; exact M). destruct (Z.ltb_spec (hov s q x (fun i j _ => V i j)) 0); [lia|].
  destruct (revov s q x (fun i j _ => V i j) (fun _ j => if (j =? 0)%nat then 1 else 0)) as [rc' X] eqn:Zr. do 3 eexists. split; [reflexivity|]. split.
  - intros R i l I L. apply mindec_neg in R. rewrite (proj2 (Nat.ltb_lt _ _) I), (proj2 (Nat.ltb_lt _ _) L). cbn [andb].
    eapply second_ext; [|exact (revov_ok _ _ _ E _ _ _ _ _ Zr ltac:(lia) Hh ltac:(reflexivity) l i L I)].
    intros y. cbv beta. fold m. rewrite M, weighted_one. cbn. ring.
  - intros i l A. destruct (Nat.ltb_spec i n), (Nat.ltb_spec l q); cbn [andb]; try reflexivity; lia.
Qed.

(** hessian: the lower triangle holds the second derivatives, the upper one is untouched *)
Theorem C26_hessian : forall x H k, exact2 F s x -> m = 1%nat -> exists rc H' k', hessian s n x H k = Some (rc, H', k') /\
  ((0 <= rc)%Z -> forall i j, (i < n)%nat -> (j <= i)%nat -> second (fun x => F x 0%nat) x (unitv i) j (H' i j)) /\
  (forall i j, (n <= i)%nat \/ (i < j)%nat -> H' i j = H i j).
Proof.
  intros x H0 k0 E M. unfold hessian.
  assert (forall todo i0 rc H k, (i0 + todo = n)%nat ->
    (forall i j, (i < i0)%nat -> (j <= i)%nat -> second (fun x => F x 0%nat) x (unitv i) j (H i j)) ->
    exists rc' H' k', hessian_rows s n todo i0 rc x H k = Some (rc', H', k') /\
      ((0 <= rc')%Z -> forall i j, (i < n)%nat -> (j <= i)%nat -> second (fun x => F x 0%nat) x (unitv i) j (H' i j)) /\
      (forall i j, (n <= i)%nat \/ (i < j)%nat -> H' i j = H i j)) as Q.
  { induction todo as [|todo IH]; intros i0 rc H k Si Hi; cbn [hessian_rows].
    - do 3 eexists. split; [reflexivity|]. split; [|reflexivity]. intros _ i j I. apply Hi. lia.
    - destruct (C26_hess_vec x (unitv i0) (fun _ => 0) k E M) as (rc1 & w & k1 & A & B & _). rewrite A.
      destruct (Z.ltb_spec (mindec rc rc1) 0) as [L|L].
      + do 3 eexists. split; [reflexivity|]. split; [lia|reflexivity].
      + apply mindec_neg in L.
        destruct (IH (S i0) (mindec rc rc1) (lower_row H i0 w) k1 ltac:(lia)) as (rc2 & H2 & k2 & A2 & B2 & C2).
        * intros i j I J. unfold lower_row. destruct (Nat.eqb_spec i i0) as [->|Ne]; cbn [andb].
          -- rewrite (proj2 (Nat.leb_le _ _) J). apply B; [lia|lia].
          -- apply Hi; lia.
        * exists rc2, H2, k2. split; [exact A2|]. split; [exact B2|]. intros i j Ij. rewrite C2 by exact Ij. unfold lower_row.
          destruct (Nat.eqb_spec i i0) as [->|Ne]; cbn [andb]; [|reflexivity]. destruct (Nat.leb_spec j i0); [lia|reflexivity]. }
  destruct (Q n 0%nat 3%Z H0 k0) as (rc & H' & k' & A & B & C); [lia|intros; lia|]. exists rc, H', k'. auto.
Qed.
Theorem C26_hessian2 : forall x H k, exact2 F s x -> m = 1%nat -> (0 <= hov s n x (fun i j _ => unit_matrix i j))%Z -> exists rc H' k', hessian2 s n x H k = Some (rc, H', k') /\
  ((0 <= rc)%Z -> forall i j, (i < n)%nat -> (j <= i)%nat -> second (fun x => F x 0%nat) x (unitv i) j (H' i j)) /\
  (forall i j, (n <= i)%nat \/ (i < j)%nat -> H' i j = H i j).
Proof.
  intros x H k E M Hh. unfold hessian2. rewrite shape_ok by (try reflexivity; symmetry; exact M). destruct (Z.ltb_spec (hov s n x (fun i j _ => unit_matrix i j)) 0); [lia|].
  destruct (revov s n x (fun i j _ => unit_matrix i j) (fun _ j => if (j =? 0)%nat then 1 else 0)) as [rc' X] eqn:Zr. do 3 eexists. split; [reflexivity|]. split.
  - intros R i j I J. apply mindec_neg in R. rewrite (proj2 (Nat.ltb_lt _ _) I), (proj2 (Nat.leb_le _ _) J). cbn [andb].
    eapply second_ext; [|exact (revov_ok _ _ _ E _ _ _ _ _ Zr ltac:(lia) Hh ltac:(reflexivity) i j I ltac:(unfold n in *; lia))].
    intros y. cbv beta. fold m. rewrite M, weighted_one. cbn. ring.
  - intros i j A. destruct (Nat.ltb_spec i n), (Nat.leb_spec j i); cbn [andb]; try reflexivity; lia.
Qed.

(** large_jacobian, when the chunks do not run past the last column: the same matrix as
    jacobian, and the value of F.  The return code is that of the last chunk only, so all
    sweeps must succeed. *)
Definition fits (runns : Z) : Prop :=
  let N := Z.of_nat n in let r := Z.max 1 (Z.min runns N) in ((r - 1) * ((N + r - 1) / r) <= N)%Z.
Theorem C26_large_jacobian : forall runns x r J k, exact1 F s x -> fits runns ->
  (forall p X, (0 <= fst (fst (fov s p x X)))%Z) ->
  exists rc y J' k', large_jacobian s m n runns x r J k = Some (rc, y, J', k') /\
  (forall j, (j < m)%nat -> y j = F x j) /\
  (forall j i, (j < m)%nat -> (i < n)%nat -> partial (fun x => F x j) x i (J' j i)) /\
  (forall j i, (m <= j)%nat \/ (n <= i)%nat -> J' j i = J j i).
Proof.
  intros runns x r0 J0 k E Fi Hs. unfold large_jacobian.
  set (N := Z.of_nat n) in *. set (R := (if (if (runns >? N)%Z then N else runns) <? 1 then 1 else if (runns >? N)%Z then N else runns)%Z).
  assert (R = Z.max 1 (Z.min runns N)) as ER.
  { unfold R. rewrite Z.gtb_ltb. destruct (Z.ltb_spec N runns); [destruct (Z.ltb_spec N 1)|destruct (Z.ltb_spec runns 1)]; lia. }
  assert ((if (runns >? N)%Z then N else runns) <? 1 = true \/ True)%Z as _ by auto.
  set (d := (if Z.rem N R =? 0 then Z.quot N R else Z.quot N R + 1)%Z).
  assert (1 <= R)%Z as R1 by lia.
  assert (d = (N + R - 1) / R)%Z as Ed.
  { unfold d. rewrite Z.quot_div_nonneg, Z.rem_mod_nonneg by lia. pose proof (Z.div_mod N R ltac:(lia)). pose proof (Z.mod_pos_bound N R ltac:(lia)).
    destruct (Z.eqb_spec (N mod R) 0) as [Z0|Z0].
    - apply (Z.div_unique _ _ _ (R - 1)); [left; lia|]. nia.
    - apply (Z.div_unique _ _ _ (N mod R - 1)); [left; lia|]. nia. }
  assert ((R - 1) * d <= N)%Z as B1. { unfold fits in Fi. cbv zeta in Fi. fold N in Fi. rewrite <- ER in Fi. now rewrite Ed. }
  assert (N <= R * d)%Z as B2.
  { rewrite Ed. pose proof (Z.div_mod (N + R - 1) R ltac:(lia)). pose proof (Z.mod_pos_bound (N + R - 1) R ltac:(lia)). nia. }
  assert (0 <= d)%Z as B3. { rewrite Ed. apply Z.div_pos; lia. }
  assert (forall p off J, (0 <= p)%Z -> (0 <= off)%Z -> (off + p <= N)%Z -> exists rc y J', fov_offset s m n p off x J = Some (rc, y, J') /\
     (forall j, (j < m)%nat -> y j = F x j) /\
     (forall j i, (j < m)%nat -> (off <= Z.of_nat i < off + p)%Z -> partial (fun x => F x j) x i (J' j i)) /\
     (forall j i, (m <= j)%nat \/ ~ (off <= Z.of_nat i < off + p)%Z -> J' j i = J j i)) as One.
  { intros p off J P O PO. unfold fov_offset. rewrite shape_ok by reflexivity. cbn [negb].
    rewrite (proj2 (Z.leb_le _ _) P), (proj2 (Z.leb_le _ _) O). fold N. rewrite (proj2 (Z.leb_le _ _) PO). cbn [andb].
    destruct (fov s (Z.to_nat p) x (fun i l => unit_matrix i (l + Z.to_nat off)%nat)) as [[rc y] Y] eqn:Zf.
    pose proof (Hs (Z.to_nat p) (fun i l => unit_matrix i (l + Z.to_nat off)%nat)) as Rc. rewrite Zf in Rc. cbn [fst] in Rc.
    do 3 eexists. split; [reflexivity|]. pose proof (fov_ok _ _ _ E _ _ _ _ _ Zf Rc) as Q. split; [intros j A; apply (Q j A)|].
    unfold window. split.
    - intros j i A I. rewrite (proj2 (Nat.ltb_lt _ _) A), (proj2 (Nat.leb_le _ _)), (proj2 (Nat.ltb_lt _ _)) by lia. cbn [andb].
      destruct (Q j A) as [_ Q2]. specialize (Q2 (i - Z.to_nat off)%nat ltac:(lia)). unfold partial.
      replace (i - Z.to_nat off + Z.to_nat off)%nat with i in Q2 by lia. exact Q2.
    - intros j i A. destruct (Nat.ltb_spec j m), (Nat.leb_spec (Z.to_nat off) i), (Nat.ltb_spec i (Z.to_nat off + Z.to_nat p)); cbn [andb]; try reflexivity. lia. }
  assert (forall todo i0 r J, (0 <= i0)%Z -> (i0 + Z.of_nat todo = R - 1)%Z ->
    exists r' J', chunks s m n todo i0 d x r J = Some (r', J') /\
     (forall j i, (j < m)%nat -> (i0 * d <= Z.of_nat i < (R - 1) * d)%Z -> partial (fun x => F x j) x i (J' j i)) /\
     (forall j i, (m <= j)%nat \/ ~ (i0 * d <= Z.of_nat i < (R - 1) * d)%Z -> J' j i = J j i)) as Many.
  { induction todo as [|todo IH]; intros i0 r J I0 Si; cbn [chunks].
    - exists r, J. split; [reflexivity|]. split; [intros j i _ A; replace (R - 1)%Z with i0 in A by lia; lia|reflexivity].
    - destruct (One d (i0 * d)%Z J B3 ltac:(nia)) as (rc & y & J1 & A1 & A2 & A3 & A4). { assert ((i0 + 1) * d <= (R - 1) * d)%Z by (apply Z.mul_le_mono_nonneg_r; lia). lia. }
      rewrite A1. destruct (IH (i0 + 1)%Z (fill r m y) J1 ltac:(lia) ltac:(lia)) as (r' & J' & C1 & C2 & C3).
      exists r', J'. split; [exact C1|]. split.
      + intros j i Jm I. destruct (Z_lt_dec (Z.of_nat i) ((i0 + 1) * d)) as [L|L].
        * rewrite C3 by (right; lia). apply A3; [exact Jm|lia].
        * apply C2; [exact Jm|lia].
      + intros j i A. assert ((i0 + 1) * d <= (R - 1) * d)%Z by (apply Z.mul_le_mono_nonneg_r; lia).
        rewrite C3, A4; [reflexivity| |]; destruct A as [A|A]; try (now left); right; nia. }
  destruct (Many (Z.to_nat (R - 1)) 0%Z r0 J0 ltac:(lia) ltac:(lia)) as (r1 & J1 & C1 & C2 & C3).
  rewrite C1. destruct (One (N - (R - 1) * d)%Z (N - (N - (R - 1) * d))%Z J1 ltac:(lia) ltac:(nia) ltac:(lia)) as (rc & y & J2 & A1 & A2 & A3 & A4).
  rewrite A1. do 4 eexists. split; [reflexivity|]. split; [|split].
  - intros j Jm. unfold fill. rewrite (proj2 (Nat.ltb_lt _ _) Jm). now apply A2.
  - intros j i Jm In. destruct (Z_lt_dec (Z.of_nat i) ((R - 1) * d)) as [L|L].
    + rewrite A4 by (right; lia). apply C2; [exact Jm|lia].
    + apply A3; [exact Jm|unfold N; lia].
  - intros j i A. rewrite A4, C3; [reflexivity| |]; destruct A as [A|A]; try (now left); right; unfold N in *; nia.
Qed.
End Props.

(** The condition is needed: with 5 arguments and 4 runs the third run already works on
    columns 4 and 5 of matrices that have 5 columns *)
Theorem C26_large_jacobian_refuted : forall (s : sweeps) x r J k, inds s = 5%nat ->
  large_jacobian s (deps s) (inds s) 4 x r J k = None.
Proof.
  intros s x r J k N. unfold large_jacobian. rewrite N.
  cbv beta iota zeta delta [Z.of_nat Z.gtb Z.ltb Z.compare Z.quot Z.rem Z.quotrem Pos.of_succ_nat Pos.succ Pos.compare Pos.compare_cont Z.eqb Pos.eqb
    N.pos_div_eucl N.leb N.compare N.sub Pos.sub_mask Pos.double_mask Pos.succ_double_mask Pos.pred_double N.succ_double N.double N.succ Pos.double_pred_mask Pos.pred_mask Pos.sub_mask_carry Z.of_N fst snd Z.opp Z.add Pos.add Z.sub Z.pos_sub Z.to_nat Pos.to_nat Pos.iter_op Init.Nat.add Z.mul Z.double Z.succ_double Z.pred_double Pos.add_carry].
  cbn [chunks].
  assert (forall p off J, (0 <= p)%Z -> (0 <= off)%Z -> (off + p <= 5)%Z -> exists rc y J', fov_offset s (deps s) 5 p off x J = Some (rc, y, J')) as One.
  { intros p off J1 P O PO. unfold fov_offset, shape. rewrite N, !Nat.eqb_refl. cbn [andb negb Z.of_nat Pos.of_succ_nat Pos.succ].
    rewrite (proj2 (Z.leb_le _ _) P), (proj2 (Z.leb_le _ _) O), (proj2 (Z.leb_le _ _) PO). cbn [andb].
    destruct (fov s _ x _) as [[rc y] Y]. eauto. }
  destruct (One 2%Z (0 * 2)%Z J ltac:(lia) ltac:(lia) ltac:(lia)) as (rc & y & J1 & ->).
  destruct (One 2%Z ((0 + 1) * 2)%Z J1 ltac:(lia) ltac:(lia) ltac:(lia)) as (rc2 & y2 & J2 & ->).
  unfold fov_offset at 1, shape. rewrite N, !Nat.eqb_refl. reflexivity.
Qed.

(** the condition [fits] in closed form for the usual cases *)
Theorem C26_large_jacobian_fits : forall s runns, (exists q, Z.of_nat (inds s) = runns * q)%Z \/ (runns <= 2)%Z \/ (Z.of_nat (inds s) <= runns)%Z -> fits s runns.
Proof.
  intros s runns H. unfold fits. cbv zeta. set (N := Z.of_nat (inds s)) in *. assert (0 <= N)%Z as N0 by (unfold N; lia).
  destruct (Z_le_dec N runns) as [L|L].
  - destruct (Z.eq_dec N 0) as [Z0|Z0]; [rewrite Z0, Z.min_r by lia; cbn; lia|]. rewrite Z.min_r, Z.max_r by lia.
    replace (N + N - 1)%Z with (1 * N + (N - 1))%Z by lia. rewrite Z.div_add_l by lia. rewrite Z.div_small by lia. lia.
  - rewrite Z.min_l by lia. destruct (Z_le_dec runns 1) as [R1|R1]; [rewrite Z.max_l by lia; lia|]. rewrite Z.max_r by lia.
    destruct H as [[q Q]|[H|H]]; [| |lia].
    + assert ((N + runns - 1) / runns = q)%Z as -> by (symmetry; apply (Z.div_unique _ _ _ (runns - 1)); [left; lia|lia]). nia.
    + assert (runns = 2)%Z as -> by lia. pose proof (Z.div_mod (N + 2 - 1) 2 ltac:(lia)). pose proof (Z.mod_pos_bound (N + 2 - 1) 2 ltac:(lia)). lia.
Qed.

(** ** A concrete function: F(x0, x1) = x0 x1 and its exact sweeps *)
Definition prod_F : vec -> vec := fun x _ => x 0%nat * x 1%nat.
Definition prod_grad (x : vec) (i : nat) : R := if (i =? 0)%nat then x 1%nat else if (i =? 1)%nat then x 0%nat else 0.
Definition prod_dir (x v : vec) : R := v 0%nat * x 1%nat + x 0%nat * v 1%nat.
Definition prod_sweeps : sweeps := mk_sweeps 1 2
  (fun x => (3%Z, prod_F x)) (fun x v => (3%Z, prod_F x, fun _ => prod_dir x v))
  (fun p x X => (3%Z, prod_F x, fun _ l => prod_dir x (fun i => X i l)))
  (fun x u => (3%Z, fun i => u 0%nat * prod_grad x i))
  (fun x q U => (3%Z, fun l i => U l 0%nat * prod_grad x i))
  (fun x v u => (3%Z, fun i d => u 0%nat * prod_grad v i))
  (fun q x X => 3%Z)
  (fun q x X U => (3%Z, fun l i d => U 0%nat 0%nat * prod_grad (fun j => X j l 0%nat) i)).
Lemma prod_directional : forall x v j, directional (fun x => prod_F x j) x v (prod_dir x v).
Proof.
  intros x v j. unfold directional, prod_F, line, prod_dir. auto_derive; [exact I|]. ring.
Qed.
Lemma prod_partial : forall w x i, (i < 2)%nat -> partial (fun x => weighted 1 w (prod_F x)) x i (w 0%nat * prod_grad x i).
Proof.
  intros w x i H. unfold partial, directional, weighted, prod_F, line, prod_grad, unitv.
  destruct i as [|[|i]]; [| |lia]; cbn [Nat.eqb]; auto_derive; try exact I; ring.
Qed.
Lemma prod_second : forall w x v i, (i < 2)%nat -> second (fun x => weighted 1 w (prod_F x)) x v i (w 0%nat * prod_grad v i).
Proof.
  intros w x v i H g (eps & Hg).
  apply (is_derive_ext_loc (fun t => w 0%nat * prod_grad (line x v t) i)).
  - exists eps. intros t T. assert (Rabs t < eps) as T2. { replace t with (minus t 0) by (unfold minus, plus, opp; cbn; ring). exact T. }
    pose proof (Hg t T2) as A. pose proof (prod_partial w (line x v t) i H) as B. unfold partial, directional in A, B.
    apply is_derive_unique in A. apply is_derive_unique in B. cbv beta in A, B. rewrite B in A. exact A.
  - unfold prod_grad, line. destruct i as [|[|i]]; [| |lia]; cbn [Nat.eqb]; auto_derive; try exact I; ring.
Qed.
Theorem C26_nontrivial : (forall x, exact1 prod_F prod_sweeps x /\ exact2 prod_F prod_sweeps x) /\ fits prod_sweeps 2 /\
  (forall x, exists rc g k, gradient prod_sweeps 2 x (fun _ => 0) nothing = Some (rc, g, k) /\ rc = 3%Z /\ g 0%nat = x 1%nat /\ g 1%nat = x 0%nat) /\
  (forall x, exists rc H k, hessian prod_sweeps 2 x (fun _ _ => 7) nothing = Some (rc, H, k) /\ rc = 3%Z /\ H 0%nat 0%nat = 0 /\ H 1%nat 0%nat = 1 /\ H 0%nat 1%nat = 7).
Proof.
  split; [|split; [|split]].
  - intros x. split; constructor; cbn [deps inds zos fos fov rev1 revv rev2 hov revov prod_sweeps].
    + intros rc y Q. injection Q as <- <-. reflexivity.
    + intros v rc y yd Q. injection Q as <- <- <-. intros _ j _. split; [reflexivity|apply prod_directional].
    + intros p X rc y Y Q. injection Q as <- <- <-. intros _ j _. split; [reflexivity|]. intros l _. apply prod_directional.
    + intros u rc z _ Q. injection Q as <- <-. intros _ i H. now apply prod_partial.
    + intros q U rc z _ Q. injection Q as <- <-. intros _ l i _ H. apply (prod_partial (U l)). exact H.
    + intros v u rc z _ Q. injection Q as <- <-. intros _ i H. now apply prod_second.
    + intros q X U rc z Q. injection Q as <- <-. intros _ _ _ l i _ H. apply (prod_second (fun j => U j 0%nat)). exact H.
  - apply C26_large_jacobian_fits. right. left. lia.
  - intros x. do 3 eexists. split; [reflexivity|]. split; [reflexivity|]. unfold fill, prod_grad. cbn. split; ring.
  - intros x. do 3 eexists. split; [reflexivity|]. split; [reflexivity|]. unfold lower_row, fill, prod_grad, unitv. cbn. split; [|split]; ring.
Qed.
