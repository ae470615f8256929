(** The interpolation formula behind tensor_eval (Griewank, Utke, Walther 2000): all
    the mathematics, over the real numbers, independent of the code. *)
From Coq Require Import List Arith Bool Lia Reals Lra.
From Verif Require Import TnModel TnSpec TnProofs TnEnum.
Import ListNotations.
Local Open Scope R_scope.

Fixpoint rsum {A} (f : A -> R) (l : list A) : R :=
  match l with [] => 0 | a :: r => f a + rsum f r end.
Lemma rsum_app : forall A (f : A -> R) l m, rsum f (l ++ m) = rsum f l + rsum f m.
Proof. induction l; intros; cbn; [lra|]. rewrite IHl. lra. Qed.
Lemma rsum_map : forall A B (f : B -> R) (g : A -> B) l, rsum f (map g l) = rsum (fun a => f (g a)) l.
Proof. induction l; cbn; [lra|]. now rewrite IHl. Qed.
Lemma rsum_flat_map : forall A B (f : B -> R) (g : A -> list B) l,
  rsum f (flat_map g l) = rsum (fun a => rsum f (g a)) l.
Proof. induction l; cbn; [lra|]. rewrite rsum_app, IHl. lra. Qed.
Lemma rsum_ext : forall A (f g : A -> R) l, (forall a, In a l -> f a = g a) -> rsum f l = rsum g l.
Proof.
  induction l; intros H; cbn; [lra|]. rewrite (H a), IHl; [lra| |now left].
  intros. apply H. now right.
Qed.
Lemma rsum_scal : forall A (f : A -> R) c l, rsum (fun a => c * f a) l = c * rsum f l.
Proof. induction l; cbn; [lra|]. rewrite IHl. lra. Qed.
Lemma rsum_plus : forall A (f g : A -> R) l, rsum (fun a => f a + g a) l = rsum f l + rsum g l.
Proof. induction l; cbn; [lra|]. rewrite IHl. lra. Qed.
Lemma rsum_zero : forall A (f : A -> R) l, (forall a, In a l -> f a = 0) -> rsum f l = 0.
Proof.
  induction l; intros H; cbn; [lra|]. rewrite (H a), IHl; [lra| |now left].
  intros. apply H. now right.
Qed.
Lemma rsum_swap : forall A B (f : A -> B -> R) l m,
  rsum (fun a => rsum (f a) m) l = rsum (fun b => rsum (fun a => f a b) l) m.
Proof.
  induction l; intros m; cbn.
  - symmetry. now apply rsum_zero.
  - rewrite IHl, <- rsum_plus. apply rsum_ext. reflexivity.
Qed.
Lemma rsum_minus : forall A (f g : A -> R) l, rsum (fun a => f a - g a) l = rsum f l - rsum g l.
Proof. induction l; cbn; [lra|]. rewrite IHl. lra. Qed.
Lemma rsum_opp : forall A (f : A -> R) l, rsum (fun a => - f a) l = - rsum f l.
Proof. induction l; cbn; [lra|]. rewrite IHl. lra. Qed.
Lemma rsum_rev : forall A (f : A -> R) l, rsum f (rev l) = rsum f l.
Proof. induction l; cbn; [lra|]. rewrite rsum_app, IHl. cbn. lra. Qed.
Lemma rsum_shift : forall (f : nat -> R) k n, rsum f (seq (S k) n) = rsum (fun a => f (S a)) (seq k n).
Proof. intros f k n. revert k. induction n; intros; cbn; [lra|]. rewrite IHn. lra. Qed.

(** generalised binomial coefficients and falling factorials *)
Fixpoint gbin (a : R) (b : nat) : R :=
  match b with O => 1 | S b' => gbin a b' * ((a - INR b') / INR (S b')) end.
Fixpoint ff (a : R) (l : nat) : R :=
  match l with O => 1 | S l' => ff a l' * (a - INR l') end.

Lemma Sn0 : forall n, INR (S n) <> 0.
Proof. intros. apply not_0_INR. lia. Qed.
Lemma gbin_S : forall a b, INR (S b) * gbin a (S b) = (a - INR b) * gbin a b.
Proof. intros. cbn [gbin]. field. apply Sn0. Qed.

Definition conv (x y : R) (d : nat) : R := rsum (fun a => gbin x a * gbin y (d - a)) (seq 0 (S d)).
Lemma vandermonde : forall d x y, conv x y d = gbin (x + y) d.
Proof.
  induction d; intros x y.
  - unfold conv. cbn. lra.
  - apply (Rmult_eq_reg_l (INR (S d))); [|apply Sn0]. rewrite gbin_S, <- IHd.
    unfold conv.
    rewrite <- !rsum_scal.
    (* (S d) = a + (S d - a) *)
    transitivity (rsum (fun a => INR a * gbin x a * gbin y (S d - a)) (seq 0 (S (S d)))
                + rsum (fun a => gbin x a * (INR (S d - a) * gbin y (S d - a))) (seq 0 (S (S d)))).
    { rewrite <- rsum_plus. apply rsum_ext. intros a I. apply in_seq in I.
      replace (INR (S d)) with (INR a + INR (S d - a)) by (rewrite <- plus_INR; f_equal; lia). ring. }
    transitivity (rsum (fun a => (x - INR a) * gbin x a * gbin y (d - a)) (seq 0 (S d))
                + rsum (fun a => gbin x a * ((y - INR (d - a)) * gbin y (d - a))) (seq 0 (S d))).
    { f_equal.
      - change (seq 0 (S (S d))) with (0%nat :: seq 1 (S d)). cbn [rsum]. rewrite rsum_shift.
        replace (INR 0 * gbin x 0 * gbin y (S d - 0)) with 0 by (cbn [INR]; ring).
        rewrite Rplus_0_l. apply rsum_ext. intros a I. rewrite gbin_S. reflexivity.
      - rewrite seq_S, rsum_app. cbn [rsum Nat.add]. rewrite Nat.sub_diag. cbn [INR].
        rewrite !Rmult_0_l, Rmult_0_r, !Rplus_0_r. apply rsum_ext. intros a I. apply in_seq in I.
        replace (S d - a)%nat with (S (d - a)) by lia. rewrite gbin_S. reflexivity. }
    rewrite <- rsum_plus. apply rsum_ext. intros a I. apply in_seq in I.
    replace (INR d) with (INR a + INR (d - a)) by (rewrite <- plus_INR; f_equal; lia). ring.
Qed.

(** products over coordinates *)
Fixpoint gb (z : list R) (j : list nat) : R :=
  match z, j with x :: z', a :: j' => gbin x a * gb z' j' | _, _ => 1 end.
Fixpoint zsum (z : list R) : R := match z with [] => 0 | x :: z' => x + zsum z' end.

(* x^e times the falling factorial of x of length l, per coordinate *)
Fixpoint W (w : list (nat * nat)) (x : list R) : R :=
  match w, x with
  | (e, l) :: w', a :: x' => a ^ e * ff a l * W w' x'
  | _, _ => 1
  end.
Definition deg (w : list (nat * nat)) : nat := list_sum (map (fun q => fst q + snd q)%nat w).
Definition powers (w : list (nat * nat)) : nat := list_sum (map fst w).

Lemma ff_zero : forall j l, (j < l)%nat -> ff (INR j) l = 0.
Proof.
  intros j l H. induction H; cbn [ff].
  - replace (INR j - INR j) with 0 by ring. ring.
  - rewrite IHle. ring.
Qed.
Lemma ff_head : forall l x, ff x (S l) = x * ff (x - 1) l.
Proof.
  induction l; intros x.
  - cbn. ring.
  - cbn [ff] in *. rewrite IHl. rewrite S_INR. ring.
Qed.
Lemma ff_gbin : forall l z j, (l <= j)%nat -> ff (INR j) l * gbin z j = ff z l * gbin (z - INR l) (j - l).
Proof.
  induction l; intros z j H.
  - cbn [ff]. rewrite Nat.sub_0_r. cbn [INR]. rewrite Rminus_0_r. ring.
  - destruct j as [|j]; [lia|].
    rewrite !ff_head. replace (INR (S j) - 1) with (INR j) by (rewrite S_INR; ring).
    replace (z - INR (S l)) with (z - 1 - INR l) by (rewrite S_INR; ring).
    cbn [Nat.sub].
    specialize (IHl (z - 1) j ltac:(lia)).
    assert (forall b a, INR (S b) * gbin a (S b) = a * gbin (a - 1) b) as E.
    { clear. induction b; intros a.
      - cbn [gbin INR]. field.
      - rewrite (gbin_S a (S b)).
        apply (Rmult_eq_reg_l (INR (S b))); [|apply Sn0].
        transitivity ((a - INR (S b)) * (INR (S b) * gbin a (S b))); [ring|]. rewrite IHb.
        transitivity (a * (INR (S b) * gbin (a - 1) (S b))); [|ring]. rewrite gbin_S.
        replace (a - 1 - INR b) with (a - INR (S b)) by (rewrite S_INR; ring). ring. }
    transitivity (ff (INR j) l * (INR (S j) * gbin z (S j))); [ring|]. rewrite E.
    transitivity (z * (ff (INR j) l * gbin (z - 1) j)); [ring|]. rewrite IHl. ring.
Qed.

Definition real (j : list nat) : list R := map INR j.

(* falling factorials only *)
Lemma falling_sum : forall l z d, length l = length z -> 
  rsum (fun j => W (map (fun a => (0%nat, a)) l) (real j) * gb z j) (vectors (length z) d)
  = if (list_sum l <=? d)%nat
    then W (map (fun a => (0%nat, a)) l) z * gbin (zsum z - INR (list_sum l)) (d - list_sum l)
    else 0.
Proof.
  induction l as [|a l IH]; intros [|x z] d L; try discriminate L.
  - cbn [length vectors map W zsum]. destruct d.
    + cbn. ring.
    + cbn. replace (0 - 0 - 0) with 0 by ring.
      assert (forall k, gbin 0 (S k) = 0) as Z.
      { clear. induction k; cbn [gbin] in *; [cbn [INR]; field|rewrite IHk; ring]. }
      pose proof (Z d) as Zd. cbn [gbin] in Zd. replace (0 - INR d) with (0 - INR d) in Zd by ring.
      change (0 = 1 * (gbin (0 - 0) d * ((0 - 0 - INR d) / INR (S d)))).
      replace (0 - 0) with 0 by ring. rewrite Zd. ring.
  - cbn [length]. injection L as L. cbn [vectors]. rewrite rsum_flat_map, rsum_rev.
    change (list_sum (a :: l)) with (a + list_sum l)%nat.
    transitivity (rsum (fun b => ff (INR b) a * gbin x b *
       (if (list_sum l <=? d - b)%nat then W (map (fun a => (0%nat, a)) l) z
           * gbin (zsum z - INR (list_sum l)) (d - b - list_sum l) else 0)) (seq 0 (S d))).
    { apply rsum_ext. intros b I. rewrite rsum_map. rewrite <- (IH z (d - b)%nat L), <- rsum_scal.
      apply rsum_ext. intros j J. cbn [map W real gb pow]. unfold real. cbn. ring. }
    set (s := list_sum l) in *. set (w := W _ z).
    destruct (Nat.leb_spec (a + s) d) as [G|G].
    + (* b ranges effectively over a .. d - s *)
      replace (S d) with (a + (S (d - s - a) + s))%nat by lia.
      rewrite !seq_app, !rsum_app. cbn [Nat.add].
      rewrite (rsum_zero _ _ (seq 0 a)).
      2:{ intros b I. apply in_seq in I. rewrite ff_zero by lia. ring. }
      rewrite (rsum_zero _ _ (seq (a + S (d - s - a)) s)).
      2:{ intros b I. apply in_seq in I. destruct (Nat.leb_spec s (d - b)); [lia|]. ring. }
      rewrite Rplus_0_l, Rplus_0_r.
      transitivity (rsum (fun b => ff x a * w * (gbin (x - INR a) b * gbin (zsum z - INR s) (d - s - a - b)))
                         (seq 0 (S (d - s - a)))).
      { assert (forall n k (f : nat -> R), rsum f (seq (k + n) (S (d - s - a))) = rsum (fun b => f (b + n)%nat) (seq k (S (d - s - a)))) as Sh.
        { clear. intros n k f. generalize (S (d - s - a)). intros m. revert k. induction m; intros; cbn; [lra|].
          now rewrite <- IHm. }
        pose proof (Sh a 0%nat) as Sh0. cbn [Nat.add] in Sh0. rewrite Sh0. apply rsum_ext.
        intros b I. apply in_seq in I. rewrite ff_gbin by lia.
        destruct (Nat.leb_spec s (d - (b + a))); [|lia].
        replace (b + a - a)%nat with b by lia.
        replace (d - (b + a) - s)%nat with (d - s - a - b)%nat by lia. ring. }
      rewrite rsum_scal. fold (conv (x - INR a) (zsum z - INR s) (d - s - a)).
      rewrite vandermonde. cbn [zsum map W]. fold w. rewrite plus_INR.
      replace (x - INR a + (zsum z - INR s)) with (x + zsum z - (INR a + INR s)) by ring.
      replace (d - (a + s))%nat with (d - s - a)%nat by lia. cbn [pow]. ring.
    + apply rsum_zero. intros b I. apply in_seq in I.
      destruct (Nat.leb_spec s (d - b)); [|ring].
      rewrite ff_zero by lia. ring.
Qed.
Lemma gbin_diag : forall n, gbin (INR n) n = 1.
Proof.
  intros n. assert (forall l j, (l <= j)%nat -> ff (INR j) l = ff (INR j) l) by reflexivity.
  assert (forall b a, INR (S b) * gbin a (S b) = a * gbin (a - 1) b) as E.
    { clear. induction b; intros a.
      - cbn [gbin INR]. field.
      - rewrite (gbin_S a (S b)).
        apply (Rmult_eq_reg_l (INR (S b))); [|apply Sn0].
        transitivity ((a - INR (S b)) * (INR (S b) * gbin a (S b))); [ring|]. rewrite IHb.
        transitivity (a * (INR (S b) * gbin (a - 1) (S b))); [|ring]. rewrite gbin_S.
        replace (a - 1 - INR b) with (a - INR (S b)) by (rewrite S_INR; ring). ring. }
  clear H. induction n; [reflexivity|].
  apply (Rmult_eq_reg_l (INR (S n))); [|apply Sn0]. rewrite E.
  replace (INR (S n) - 1) with (INR n) by (rewrite S_INR; ring). rewrite IHn. ring.
Qed.

(* interpolation on the simplex: exact for all monomials of degree at most d *)
Lemma W_split : forall P e l Q x, length x = length (P ++ (S e, l) :: Q) ->
  W (P ++ (S e, l) :: Q) x = W (P ++ (e, S l) :: Q) x + INR l * W (P ++ (e, l) :: Q) x.
Proof.
  induction P as [|[e0 l0] P IH]; intros e l Q [|a x] L; try discriminate L; cbn [app W].
  - cbn [ff pow]. ring.
  - rewrite (IH e l Q x) by (injection L as L; exact L). ring.
Qed.
Lemma powers_zero : forall w, powers w = 0%nat -> w = map (fun a => (0%nat, a)) (map snd w).
Proof.
  induction w as [|[e l] w IH]; intros H; [reflexivity|].
  change (e + powers w = 0)%nat in H. cbn. destruct e; [|lia]. f_equal. apply IH. lia.
Qed.
Lemma powers_pos : forall w, (0 < powers w)%nat -> exists P e l Q, w = P ++ (S e, l) :: Q.
Proof.
  induction w as [|[e l] w IH]; intros H; [cbn in H; lia|].
  destruct e as [|e].
  - destruct IH as (P & e & l' & Q & ->). { exact H. }
    exists ((0%nat, l) :: P), e, l', Q. reflexivity.
  - exists [], e, l, w. reflexivity.
Qed.
Lemma deg_app : forall P Q, deg (P ++ Q) = (deg P + deg Q)%nat.
Proof. intros. unfold deg. now rewrite map_app, list_sum_app. Qed.
Lemma powers_app : forall P Q, powers (P ++ Q) = (powers P + powers Q)%nat.
Proof. intros. unfold powers. now rewrite map_app, list_sum_app. Qed.
Lemma deg_cons : forall e l Q, deg ((e, l) :: Q) = (e + l + deg Q)%nat.
Proof. reflexivity. Qed.
Lemma powers_cons : forall e l Q, powers ((e, l) :: Q) = (e + powers Q)%nat.
Proof. reflexivity. Qed.

Lemma interpolate : forall n w z d, powers w = n -> length w = length z -> zsum z = INR d ->
  (deg w <= d)%nat ->
  rsum (fun j => W w (real j) * gb z j) (vectors (length z) d) = W w z.
Proof.
  induction n as [n IH] using lt_wf_ind. intros w z d Pn L Z D.
  destruct n as [|n].
  - rewrite (powers_zero w Pn). rewrite falling_sum by now rewrite map_length.
    assert (list_sum (map snd w) = deg w) as E.
    { clear - Pn. induction w as [|[e l] w IHw]; [reflexivity|]. rewrite powers_cons in Pn.
      rewrite deg_cons, <- IHw by lia. replace e with 0%nat by lia. reflexivity. }
    rewrite E. destruct (Nat.leb_spec (deg w) d); [|lia]. rewrite Z, <- minus_INR by assumption.
    rewrite gbin_diag. ring.
  - destruct (powers_pos w ltac:(lia)) as (P & e & l & Q & ->).
    rewrite powers_app, powers_cons in Pn. rewrite deg_app, deg_cons in D.
    rewrite app_length in L. cbn [length] in L.
    rewrite W_split by (rewrite app_length; cbn [length]; lia).
    assert (forall w', powers w' = n -> length w' = length z -> (deg w' <= d)%nat ->
       rsum (fun j => W w' (real j) * gb z j) (vectors (length z) d) = W w' z) as H.
    { intros w' A B E. apply (IH n); try assumption; lia. }
    rewrite <- (H (P ++ (e, S l) :: Q)), <- (H (P ++ (e, l) :: Q)).
    2,5: rewrite powers_app, powers_cons; lia.
    2,4: rewrite app_length; cbn [length]; lia.
    2,3: rewrite deg_app, deg_cons; lia.
    rewrite <- rsum_scal, <- rsum_plus. apply rsum_ext. intros j J. apply vectors_in in J.
    rewrite W_split; [ring|]. unfold real. rewrite map_length, app_length. cbn [length]. lia.
Qed.

(** finite differences *)
Definition D (n : nat) (f : nat -> R) : R :=
  rsum (fun k => (-1) ^ (n + k) * INR (C n k) * f k) (seq 0 (S n)).
Lemma D_S : forall n f, D (S n) f = D n (fun k => f (S k) - f k).
Proof.
  intros n f. unfold D.
  transitivity (rsum (fun k => (-1) ^ (n + k) * INR (C n k) * f (S k)) (seq 0 (S n))
              - rsum (fun k => (-1) ^ (n + k) * INR (C n k) * f k) (seq 0 (S n))).
  2:{ rewrite <- rsum_minus. apply rsum_ext. intros. ring. }
  change (seq 0 (S (S n))) with (0%nat :: seq 1 (S n)) at 1. cbn [rsum]. rewrite rsum_shift.
  transitivity ((-1) ^ (S n + 0) * INR (C (S n) 0) * f 0%nat +
     (rsum (fun k => (-1) ^ (n + k) * INR (C n k) * f (S k)) (seq 0 (S n))
      + rsum (fun k => (-1) ^ (S n + S k) * INR (C n (S k)) * f (S k)) (seq 0 (S n)))).
  { f_equal. rewrite <- rsum_plus. apply rsum_ext. intros k I. rewrite C_S, plus_INR.
    replace (S n + S k)%nat with (S (S (n + k))) by lia. cbn [pow]. ring. }
  assert (rsum (fun k => (-1) ^ (n + k) * INR (C n k) * f k) (seq 0 (S n))
    = (-1) ^ n * f 0%nat - rsum (fun k => (-1) ^ (S n + S k) * INR (C n (S k)) * f (S k)) (seq 0 (S n))) as ->.
  { assert (rsum (fun k => (-1) ^ (S n + S k) * INR (C n (S k)) * f (S k)) (seq 0 (S n))
      = rsum (fun k => (-1) ^ (S n + S k) * INR (C n (S k)) * f (S k)) (seq 0 n)) as ->.
    { rewrite (seq_S n 0), rsum_app. cbn [rsum Nat.add]. rewrite (C_over n (S n)) by lia.
      cbn [INR]. rewrite Rmult_0_r, Rmult_0_l, !Rplus_0_r. reflexivity. }
    change (seq 0 (S n)) with (0%nat :: seq 1 n). cbn [rsum]. rewrite rsum_shift.
    rewrite C_0, Nat.add_0_r. cbn [INR]. rewrite Rmult_1_r. unfold Rminus. f_equal.
    rewrite <- rsum_opp. apply rsum_ext. intros.
    cbn [Nat.add pow]. ring. }
  rewrite C_0, Nat.add_0_r. cbn [INR pow]. ring.
Qed.
Lemma D_scal : forall n c f, D n (fun k => c * f k) = c * D n f.
Proof. intros. unfold D. rewrite <- rsum_scal. apply rsum_ext. intros. ring. Qed.
Lemma D_plus : forall n f g, D n (fun k => f k + g k) = D n f + D n g.
Proof. intros. unfold D. rewrite <- rsum_plus. apply rsum_ext. intros. ring. Qed.
Lemma D_ext : forall n f g, (forall k, f k = g k) -> D n f = D n g.
Proof. intros. unfold D. apply rsum_ext. intros. now rewrite H. Qed.
Lemma D_ff : forall n l, (l <= n)%nat ->
  D n (fun k => ff (INR k) l) = if (l =? n)%nat then INR (fact n) else 0.
Proof.
  induction n; intros l H.
  - replace l with 0%nat by lia. unfold D. cbn. ring.
  - rewrite D_S. destruct l as [|l].
    + cbn [Nat.eqb ff]. unfold D. apply rsum_zero. intros. ring.
    + rewrite (D_ext _ _ (fun k => INR (S l) * ff (INR k) l)).
      * rewrite D_scal, IHn by lia. cbn [Nat.eqb]. destruct (Nat.eqb_spec l n) as [->|]; [|ring].
        rewrite <- mult_INR. reflexivity.
      * intros k. rewrite ff_head. replace (INR (S k) - 1) with (INR k) by (rewrite S_INR; ring).
        cbn [ff]. rewrite !S_INR. ring.
Qed.
Lemma D_pow : forall e n l, (e + l <= n)%nat ->
  D n (fun k => INR k ^ e * ff (INR k) l) = if (e + l =? n)%nat then INR (fact n) else 0.
Proof.
  induction e; intros n l H.
  - rewrite (D_ext _ _ (fun k => ff (INR k) l)) by (intros; cbn [pow]; ring). now apply D_ff.
  - rewrite (D_ext _ _ (fun k => INR k ^ e * ff (INR k) (S l) + INR l * (INR k ^ e * ff (INR k) l))).
    2:{ intros. cbn [pow ff]. ring. }
    rewrite D_plus, D_scal, !IHe by lia.
    destruct (Nat.eqb_spec (e + l) n); [lia|].
    replace (e + S l)%nat with (S e + l)%nat by lia. ring.
Qed.

(** the box of all k with k <= i, componentwise *)
Fixpoint box (i : list nat) : list (list nat) :=
  match i with
  | [] => [[]]
  | n :: r => flat_map (fun a => map (cons a) (box r)) (seq 0 (S n))
  end.
Fixpoint binl (i k : list nat) : nat :=
  match i, k with n :: i', a :: k' => C n a * binl i' k' | _, _ => 1 end.
Fixpoint mono (x : list R) (l : list nat) : R :=
  match x, l with a :: x', e :: l' => a ^ e * mono x' l' | _, _ => 1 end.
Fixpoint factl (l : list nat) : R :=
  match l with [] => 1 | e :: l' => INR (fact e) * factl l' end.

Lemma box_product : forall i l, length l = length i ->
  rsum (fun k => (-1) ^ (list_sum i + list_sum k) * INR (binl i k) * mono (real k) l) (box i)
  = fold_right (fun q acc => D (fst q) (fun k => INR k ^ snd q) * acc) 1 (combine i l).
Proof.
  induction i as [|n i IH]; intros [|e l] L; try discriminate L.
  - cbn. ring.
  - cbn [box combine fold_right fst snd]. rewrite rsum_flat_map. injection L as L.
    rewrite <- (IH l L). unfold D.
    rewrite Rmult_comm, <- rsum_scal. apply rsum_ext. intros a I. rewrite rsum_map.
    rewrite Rmult_comm, <- rsum_scal.
    apply rsum_ext. intros k K. cbn [binl real map mono]. rewrite mult_INR.
    change (list_sum (n :: i)) with (n + list_sum i)%nat.
    change (list_sum (a :: k)) with (a + list_sum k)%nat.
    replace (n + list_sum i + (a + list_sum k))%nat with ((n + a) + (list_sum i + list_sum k))%nat by lia.
    rewrite (pow_add (-1)). fold (real k). ring.
Qed.
Lemma box_monomial : forall i l, length l = length i -> list_sum l = list_sum i ->
  rsum (fun k => (-1) ^ (list_sum i + list_sum k) * INR (binl i k) * mono (real k) l) (box i)
  = if list_eq_dec Nat.eq_dec l i then factl i else 0.
Proof.
  intros i l L E. rewrite box_product by assumption.
  destruct (list_eq_dec Nat.eq_dec l i) as [->|N].
  - clear. induction i; [reflexivity|]. cbn [combine fold_right fst snd factl]. rewrite IHi. f_equal.
    rewrite (D_ext _ _ (fun k => INR k ^ a * ff (INR k) 0)) by (intros; cbn [ff]; ring).
    rewrite D_pow by lia. rewrite Nat.add_0_r, Nat.eqb_refl. reflexivity.
  - assert (exists u, (nth u l 0 < nth u i 0)%nat /\ (u < length i)%nat) as (u & U & V).
    { revert l L E N. induction i as [|n i IH]; intros [|e l] L E N; try discriminate L; [congruence|].
      change (list_sum (e :: l)) with (e + list_sum l)%nat in E.
      change (list_sum (n :: i)) with (n + list_sum i)%nat in E. injection L as L.
      destruct (Nat.lt_ge_cases e n) as [G|G]; [exists 0%nat; cbn; split; lia|].
      destruct (Nat.eq_dec e n) as [->|].
      - destruct (IH l L) as (u & U & V); [lia|congruence|]. exists (S u). cbn. split; [assumption|lia].
      - assert (list_sum l < list_sum i)%nat as Q by lia. clear - L Q.
        assert (exists u, (nth u l 0 < nth u i 0)%nat /\ (u < length i)%nat) as (u & U & V).
        { revert i L Q. induction l as [|a l IHl]; intros [|b i] L Q; try discriminate L; [cbn in Q; lia|].
          change (list_sum (a :: l)) with (a + list_sum l)%nat in Q.
          change (list_sum (b :: i)) with (b + list_sum i)%nat in Q. injection L as L.
          destruct (Nat.lt_ge_cases a b); [exists 0%nat; cbn; split; lia|].
          destruct (IHl i L ltac:(lia)) as (u & U & V). exists (S u). cbn. split; [assumption|lia]. }
        exists (S u). cbn. split; [assumption|lia]. }
    clear E N. revert l L u U V. induction i as [|n i IH]; intros [|e l] L u U V; try discriminate L.
    { cbn in V. lia. }
    cbn [combine fold_right fst snd]. destruct u as [|u].
    + cbn in U. rewrite (D_ext _ _ (fun k => INR k ^ e * ff (INR k) 0)) by (intros; cbn [ff]; ring).
      rewrite D_pow by lia. destruct (Nat.eqb_spec (e + 0) n); [lia|]. ring.
    + cbn in U, V. injection L as L. rewrite (IH l L u U ltac:(lia)). ring.
Qed.

Lemma mono_W : forall l x, mono x l = W (map (fun e => (e, 0%nat)) l) x.
Proof.
  induction l; intros [|b x]; cbn [mono map W]; try reflexivity. rewrite IHl. cbn [ff]. ring.
Qed.
Lemma mono_scale : forall c l x, length x = length l ->
  mono (map (fun a => c * a) x) l = c ^ (list_sum l) * mono x l.
Proof.
  induction l; intros [|b x] L; try discriminate L; cbn [map mono].
  - cbn. ring.
  - change (list_sum (a :: l)) with (a + list_sum l)%nat. rewrite pow_add, Rpow_mult_distr.
    rewrite IHl by (injection L as L; exact L). ring.
Qed.
Lemma zsum_scale : forall c x, zsum (map (fun a => c * a) x) = c * zsum x.
Proof. induction x; cbn; [ring|]. rewrite IHx. ring. Qed.
Lemma zsum_real : forall k, zsum (real k) = INR (list_sum k).
Proof.
  induction k; [reflexivity|]. cbn [real map zsum]. change (list_sum (a :: k)) with (a + list_sum k)%nat.
  rewrite plus_INR. fold (real k). now rewrite IHk.
Qed.

(** the coefficients: gamma i j *)
Definition direction (d : nat) (k : list nat) : list R :=
  map (fun a => INR d / INR (list_sum k) * a) (real k).
Definition gamma (d : nat) (i j : list nat) : R :=
  rsum (fun k => (-1) ^ (list_sum i + list_sum k) * INR (binl i k) *
                 (INR (list_sum k) / INR d) ^ (list_sum i) * gb (direction d k) j)
       (filter (fun k => negb (list_sum k =? 0)%nat) (box i)).

Lemma box_length : forall i k, In k (box i) -> length k = length i.
Proof.
  induction i; intros k H; cbn [box] in H.
  - destruct H as [<-|[]]. reflexivity.
  - apply in_flat_map in H. destruct H as (b & _ & H). apply in_map_iff in H. destruct H as (k' & <- & H).
    cbn. f_equal. now apply IHi.
Qed.
Lemma rsum_filter : forall A (f : A -> R) g l, (forall a, In a l -> g a = false -> f a = 0) ->
  rsum f (filter g l) = rsum f l.
Proof.
  induction l; intros H; [reflexivity|]. cbn [filter]. destruct (g a) eqn:E; cbn [rsum].
  - rewrite IHl; [reflexivity|]. intros. apply H; [now right|assumption].
  - rewrite IHl. { rewrite (H a); [ring|now left|assumption]. } intros. apply H; [now right|assumption].
Qed.
Lemma mono_zero : forall k l, length k = length l -> list_sum k = 0%nat -> (0 < list_sum l)%nat -> mono (real k) l = 0.
Proof.
  induction k; intros [|e l] L Z H; try discriminate L; [cbn in H; lia|].
  change (list_sum (a :: k)) with (a + list_sum k)%nat in Z.
  change (list_sum (e :: l)) with (e + list_sum l)%nat in H. injection L as L.
  cbn [real map mono]. destruct e.
  - fold (real k). rewrite IHk by (try assumption; lia). ring.
  - replace a with 0%nat by lia. cbn [INR pow]. ring.
Qed.

(* sum over the directions j of gamma(i,j) j^l / l! *)
Lemma gamma_monomial : forall d i l, length l = length i -> list_sum l = list_sum i ->
  (0 < list_sum i <= d)%nat ->
  rsum (fun j => gamma d i j * mono (real j) l) (vectors (length i) d)
  = if list_eq_dec Nat.eq_dec l i then factl i else 0.
Proof.
  intros d i l L E H. rewrite <- box_monomial by assumption.
  unfold gamma.
  transitivity (rsum (fun k => (-1) ^ (list_sum i + list_sum k) * INR (binl i k) *
                 (INR (list_sum k) / INR d) ^ (list_sum i) *
                 rsum (fun j => mono (real j) l * gb (direction d k) j) (vectors (length i) d))
       (filter (fun k => negb (list_sum k =? 0)%nat) (box i))).
  { transitivity (rsum (fun j => rsum (fun k => (-1) ^ (list_sum i + list_sum k) * INR (binl i k) *
                 (INR (list_sum k) / INR d) ^ (list_sum i) * gb (direction d k) j * mono (real j) l)
       (filter (fun k => negb (list_sum k =? 0)%nat) (box i))) (vectors (length i) d)).
    { apply rsum_ext. intros j J. rewrite Rmult_comm, <- rsum_scal. apply rsum_ext. intros. ring. }
    rewrite rsum_swap. apply rsum_ext. intros k K. rewrite <- rsum_scal. apply rsum_ext. intros. ring. }
  rewrite <- (rsum_filter _ _ (fun k => negb (list_sum k =? 0)%nat) (box i)).
  2:{ intros k K Z. apply negb_false_iff, Nat.eqb_eq in Z. apply box_length in K.
      rewrite (mono_zero k l); [ring|congruence|assumption|lia]. }
  apply rsum_ext. intros k K. apply filter_In in K. destruct K as [K Z].
  apply negb_true_iff, Nat.eqb_neq in Z. apply box_length in K.
  assert (INR (list_sum k) <> 0) as Nk by now apply not_0_INR.
  assert (INR d <> 0) as Nd by (apply not_0_INR; lia).
  rewrite (rsum_ext _ _ (fun j => W (map (fun e => (e, 0%nat)) l) (real j) * gb (direction d k) j))
    by (intros; now rewrite mono_W).
  assert (length (direction d k) = length i) as Ld.
  { unfold direction, real. now rewrite !map_length. }
  rewrite <- Ld. rewrite (interpolate (powers (map (fun e => (e, 0%nat)) l))); try reflexivity.
  - rewrite <- mono_W. unfold direction. rewrite mono_scale.
    + rewrite E. rewrite Rmult_assoc, <- (Rmult_assoc _ _ (mono (real k) l)).
      rewrite <- Rpow_mult_distr.
      replace (INR (list_sum k) / INR d * (INR d / INR (list_sum k))) with 1 by (field; now split).
      rewrite pow1. ring.
    + unfold real. rewrite map_length. congruence.
  - rewrite Ld, map_length. assumption.
  - unfold direction. rewrite zsum_scale, zsum_real. now field.
  - assert (deg (map (fun e => (e, 0%nat)) l) = list_sum l) as ->; [|lia].
    clear. induction l; [reflexivity|]. cbn [map]. rewrite deg_cons, IHl. change (list_sum (a :: l)) with (a + list_sum l)%nat. lia.
Qed.
