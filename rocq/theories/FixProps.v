(* C56: fixed-point iterations as external functions. *)
From Coq Require Import List Arith Lia ZArith Reals Lra Bool.
From Coquelicot Require Import Coquelicot.
From Verif Require Import FixModel.
From Verif Require ExtModel ExtSpec.
Import ListNotations.
Open Scope R_scope.

(* ---- specification ---- *)
(* The user's norm measures distances: on vectors of length n it is the norm of a
   difference; this is all that is used of it. *)
Definition dist (nm : vec -> R) (a b : vec) : R := nm (vsub a b).
Definition metric (nm : vec -> R) (n : nat) : Prop :=
  forall a b c, length a = n -> length b = n -> length c = n ->
    0 <= dist nm a b /\ dist nm a b = dist nm b a /\
    dist nm a c <= dist nm a b + dist nm b c.

(* f maps the region D of vectors of length n into itself and contracts there *)
Definition contracts (nm : vec -> R) (n : nat) (D : vec -> Prop) (f : vec -> vec) (q : R) : Prop :=
  0 <= q < 1 /\
  (forall x, D x -> length x = n /\ D (f x)) /\
  (forall x y, D x -> D y -> dist nm (f x) (f y) <= q * dist nm x y).

Fixpoint iterate (f : vec -> vec) (k : nat) (x : vec) : vec :=
  match k with O => x | S j => f (iterate f j x) end.

(* ---- proofs ---- *)
Lemma rlt_t a b : rlt a b = true -> a < b.
Proof. unfold rlt. destruct (Rlt_dec a b); [auto|discriminate]. Qed.
Lemma rlt_f a b : rlt a b = false -> b <= a.
Proof. unfold rlt. destruct (Rlt_dec a b); [discriminate|intros; lra]. Qed.

Lemma iterate_S f k x : iterate f k (f x) = f (iterate f k x).
Proof. induction k; cbn; [reflexivity|]. now rewrite IHk. Qed.

Lemma zloop_run d u left : forall k xu x r,
  zloop d u left k xu x = r ->
  let f := fun x => G d x u in
  (exists j, (j < left)%nat /\ fst (fst r) = Z.of_nat (k + j) /\
     snd r = iterate f (S j) x /\
     dist (norm d) (iterate f (S j) x) (iterate f j x) < eps d /\
     forall i, (i < j)%nat -> eps d <= dist (norm d) (iterate f (S i) x) (iterate f i x)) \/
  (fst (fst r) = (-1)%Z /\ snd r = iterate f left x /\
     forall i, (i < left)%nat -> eps d <= dist (norm d) (iterate f (S i) x) (iterate f i x)).
Proof.
  induction left as [|left IH]; intros k xu x r H; cbv zeta; cbn [zloop] in H.
  - right. subst r. cbn. repeat split; auto. intros. lia.
  - destruct (rlt (norm d (vsub (G d x u) x)) (eps d)) eqn:E.
    + left. exists 0%nat. subst r. cbn [fst snd iterate]. apply rlt_t in E.
      repeat split; try lia; auto.
    + apply rlt_f in E. destruct (IH _ _ _ _ H) as [(j & J1 & J2 & J3 & J4 & J5)|(J1 & J2 & J3)];
        cbv zeta in *.
      * left. exists (S j).
        rewrite (iterate_S (fun x => G d x u)) in J3, J4.
        rewrite (iterate_S (fun x => G d x u)) in J4.
        repeat split; try lia; auto.
        -- intros [|i] Hi; [exact E|]. assert (i < j)%nat as Hj by lia. specialize (J5 i Hj).
           now rewrite !(iterate_S (fun x => G d x u)) in J5.
      * right. rewrite (iterate_S (fun x => G d x u)) in J2. repeat split; auto.
        intros [|i] Hi; [exact E|]. assert (i < left)%nat as Hj by lia. specialize (J3 i Hj).
        now rewrite !(iterate_S (fun x => G d x u)) in J3.
Qed.

Section metric_facts.
Variables (nm : vec -> R) (n : nat) (D : vec -> Prop) (f : vec -> vec) (q : R).
Hypothesis M : metric nm n.
Hypothesis C : contracts nm n D f q.

Lemma iter_in x : D x -> forall k, D (iterate f k x).
Proof. intros H k. destruct C as (_ & C2 & _). induction k; cbn; [auto|]. now apply C2. Qed.

Lemma D_len x : D x -> length x = n.
Proof. intros H. destruct C as (_ & C2 & _). now apply C2. Qed.

(* a posteriori: a small last step bounds the error *)
Lemma posteriori x s e : D x -> D s -> s = f s -> dist nm (f x) x < e ->
  dist nm (f x) s <= q / (1 - q) * e /\ dist nm x s <= e / (1 - q).
Proof.
  intros Hx Hs Fs He. destruct C as (Q & C2 & C3).
  pose proof (C3 x s Hx Hs) as H1. rewrite <- Fs in H1.
  destruct (C2 _ Hx) as [Lx Dx]. pose proof (D_len _ Dx) as Lfx. pose proof (D_len _ Hs) as Ls.
  destruct (M (f x) x s Lfx Lx Ls) as (P0 & P1 & _).
  destruct (M x (f x) s Lx Lfx Ls) as (_ & _ & P2).
  destruct (M x s s Lx Ls Ls) as (P3 & _ & _).
  rewrite <- P1 in P2.
  assert (B : dist nm x s * (1 - q) <= e) by lra.
  assert (I : 0 < / (1 - q)) by (apply Rinv_0_lt_compat; lra).
  assert (B2 : dist nm x s <= e / (1 - q)).
  { apply Rmult_le_reg_r with (1 - q); [lra|]. unfold Rdiv. rewrite Rmult_assoc, Rinv_l by lra. lra. }
  split; [|exact B2].
  apply Rle_trans with (q * dist nm x s); [exact H1|].
  apply Rle_trans with (q * (e / (1 - q))).
  - apply Rmult_le_compat_l; lra.
  - right. unfold Rdiv. ring.
Qed.

Lemma steps_shrink x : D x -> forall k,
  dist nm (iterate f (S k) x) (iterate f k x) <= q ^ k * dist nm (f x) x.
Proof.
  intros H. destruct C as (Q & C2 & C3). induction k as [|k IH].
  - cbn. lra.
  - change (iterate f (S (S k)) x) with (f (iterate f (S k) x)).
    change (iterate f (S k) x) with (f (iterate f k x)) at 2.
    eapply Rle_trans; [apply C3; [apply (iter_in x H (S k))|apply (iter_in x H k)]|].
    cbn [pow]. rewrite Rmult_assoc. apply Rmult_le_compat_l; [lra|exact IH].
Qed.
End metric_facts.

(* The value: fp_iteration (while recording) and zos_forward of the outer tape.
   A positive return value k means: k steps were made, k is the first step that
   moved less than epsilon, and the result is as close to the fixed point as the
   contraction allows; -1 means N_max steps were made, none of them that small. *)
Theorem C56_value d n D q x0 u xs k xu xf :
  metric (norm d) n -> contracts (norm d) n D (fun x => G d x u) q ->
  D x0 -> D xs -> xs = G d xs u ->
  iteration d x0 u = (k, xu, xf) ->
  let xk := fun j => iterate (fun x => G d x u) j x0 in
  (exists j, (1 <= j <= nmax d)%nat /\ k = Z.of_nat j /\ xf = xk j /\
     dist (norm d) xf xs <= q / (1 - q) * eps d /\
     (forall i, (1 <= i < j)%nat -> eps d <= dist (norm d) (xk i) (xk (i - 1)%nat))) \/
  (k = (-1)%Z /\ xf = xk (nmax d) /\
     (forall i, (1 <= i <= nmax d)%nat -> eps d <= dist (norm d) (xk i) (xk (i - 1)%nat))).
Proof.
  intros M C H0 Hs Fs E. cbv zeta. unfold iteration in E.
  destruct (zloop_run _ _ _ _ _ _ _ E) as [(j & J1 & J2 & J3 & J4 & J5)|(J1 & J2 & J3)];
    cbn [fst snd] in *.
  - left. exists (S j). repeat split; try lia; auto.
    + subst xf. cbn [iterate] in *.
      apply (posteriori (norm d) n D (fun x => G d x u) q M C (iterate (fun x => G d x u) j x0) xs);
        auto. now apply (iter_in _ _ _ _ _ C).
    + intros i Hi. destruct i as [|i]; [lia|]. replace (S i - 1)%nat with i by lia. apply J5. lia.
  - right. repeat split; auto. intros [|i] Hi; [lia|]. replace (S i - 1)%nat with i by lia. apply J3. lia.
Qed.

(* It does return a positive value when N_max is large enough. *)
Theorem C56_converges d n D q x0 u :
  metric (norm d) n -> contracts (norm d) n D (fun x => G d x u) q -> D x0 ->
  (1 <= nmax d)%nat -> q ^ (nmax d - 1) * dist (norm d) (G d x0 u) x0 < eps d ->
  (0 < fst (fst (iteration d x0 u)))%Z.
Proof.
  intros M C H0 Hn He. destruct (iteration d x0 u) as [[k xu] xf] eqn:E. cbn [fst].
  unfold iteration in E. destruct (zloop_run _ _ _ _ _ _ _ E) as [(j & J1 & J2 & _)|(J1 & J2 & J3)];
    cbn [fst snd] in *; [lia|].
  exfalso. specialize (J3 (nmax d - 1)%nat ltac:(lia)).
  pose proof (steps_shrink (norm d) n D (fun x => G d x u) q C x0 H0 (nmax d - 1)) as S1. lra.
Qed.

(* zos_forward of the outer tape does the same *)
Theorem C56_zos d x0 u : fp_zos d x0 u = iteration d x0 u.
Proof. reflexivity. Qed.

(* ---- fos_forward ---- *)

(* the sequence of (value, tangent) pairs *)
Definition fmap (d : fpi) (u ud : vec) (p : vec * vec) : vec * vec :=
  (G d (fst p) u, Gt d (fst p) u (snd p) ud).
Fixpoint fiter (d : fpi) (u ud : vec) (k : nat) (p : vec * vec) : vec * vec :=
  match k with O => p | S j => fmap d u ud (fiter d u ud j p) end.

Lemma fiter_S d u ud k p : fiter d u ud k (fmap d u ud p) = fmap d u ud (fiter d u ud k p).
Proof. induction k; cbn [fiter]; [reflexivity|]. now rewrite IHk. Qed.

Lemma floop_run d keep u ud left : forall k x X xf Xf s r,
  floop d keep u ud left k x X xf Xf s = r -> (1 <= k)%nat -> (0 < fst (fst r))%Z ->
  exists j, (j < left)%nat /\ fst (fst r) = Z.of_nat (k + j) /\
    let p := fiter d u ud j (if (1 <? k)%nat then (xf, Xf) else (x, X)) in
    snd (fst r) = fmap d u ud p /\
    (keep = true -> snd r = mkSub (fst p) u) /\
    dist (norm d) (fst (fmap d u ud p)) (fst p) < eps d /\
    dist (normd d) (snd (fmap d u ud p)) (snd p) < epsd d.
Proof.
  induction left as [|left IH]; intros k x X xf Xf s r H Hk Hr; cbn [floop] in H.
  - subst r. cbn in Hr. lia.
  - set (x1 := if (1 <? k)%nat then xf else x) in *. set (X1 := if (1 <? k)%nat then Xf else X) in *.
    assert (Q : (if (1 <? k)%nat then (xf, Xf) else (x, X)) = (x1, X1)).
    { unfold x1, X1. now destruct (1 <? k)%nat. }
    rewrite Q.
    destruct (rlt (norm d (vsub (G d x1 u) x1)) (eps d) &&
              rlt (normd d (vsub (Gt d x1 u X1 ud) X1)) (epsd d)) eqn:E.
    + apply andb_true_iff in E. destruct E as [E1 E2]. apply rlt_t in E1, E2.
      exists 0%nat. subst r. cbn [fst snd fiter fmap]. repeat split; try lia; auto.
      intros ->. reflexivity.
    + destruct (IH _ _ _ _ _ _ _ H ltac:(lia) Hr) as (j & J1 & J2 & J3). cbv zeta in J3.
      destruct (Nat.ltb_spec 1 (S k)) as [_|]; [|lia].
      change (G d x1 u, Gt d x1 u X1 ud) with (fmap d u ud (x1, X1)) in J3. rewrite fiter_S in J3.
      exists (S j). repeat split; try lia; try apply J3.
Qed.

Lemma fiter_fst d u ud p : forall k, fst (fiter d u ud k p) = iterate (fun x => G d x u) k (fst p).
Proof. induction k; cbn; [reflexivity|]. now rewrite IHk. Qed.

(* moves, from ExtSpec: a curve of vectors and its derivative, by components *)
(* fos_forward of the outer tape: xs(t) is a curve of fixed points over the curve
   of parameters us(t); Xs is its derivative. L: how much the tangent sweep of the
   sub tape at x differs, on Xs, from the one at the fixed point. *)
Theorem C56_tangent d n D DX q L keep x0 X0 xf Xf s us ud xs Xs t0 k x1 X1 s1 :
  metric (norm d) n -> metric (normd d) n ->
  let u := us t0 in
  contracts (norm d) n D (fun x => G d x u) q ->
  (forall x, D x -> contracts (normd d) n DX (fun X => Gt d x u X ud) q) ->
  (forall x, D x -> dist (normd d) (Gt d x u Xs ud) (Gt d (xs t0) u Xs ud) <= L * dist (norm d) x (xs t0)) ->
  0 <= L ->
  D x0 -> DX X0 -> D (xs t0) -> DX Xs ->
  (forall t, xs t = G d (xs t) (us t)) -> ExtSpec.moves xs Xs t0 ->
  (* the sub tape's tangent sweep is the derivative along this curve *)
  ExtSpec.moves (fun t => G d (xs t) (us t)) (Gt d (xs t0) u Xs ud) t0 ->
  length Xs = n ->
  fp_fos d keep x0 u X0 ud xf Xf s = (k, (x1, X1), s1) -> (0 < k)%Z ->
  dist (norm d) x1 (xs t0) <= q / (1 - q) * eps d /\
  dist (normd d) X1 Xs <= q / (1 - q) * epsd d + L / ((1 - q) * (1 - q)) * eps d.
Proof.
  intros M Md u C Ct HL L0 H0 HX0 Hs HXs Fs Mv Mg Ln E Kp.
  unfold fp_fos in E. destruct (floop_run _ _ _ _ _ _ _ _ _ _ _ _ E (le_n 1) Kp)
    as (j & J1 & J2 & J3). cbv zeta in J3. cbn [Nat.ltb Nat.leb fst snd] in J3.
  set (p := fiter d u ud j (x0, X0)) in *.
  destruct J3 as (P1 & _ & P3 & P4). cbn [fmap fst snd] in P1, P3, P4. injection P1 as -> ->.
  assert (Dp : D (fst p)).
  { unfold p. rewrite fiter_fst. cbn [fst]. now apply (iter_in _ _ _ _ _ C). }
  assert (DXp : DX (snd p)).
  { assert (forall i, D (fst (fiter d u ud i (x0, X0))) /\ DX (snd (fiter d u ud i (x0, X0)))) as Q.
    { induction i as [|i [I1 I2]]; cbn [fiter fmap fst snd]; [auto|]. split.
      - destruct C as (_ & C2 & _). now apply C2.
      - destruct (Ct _ I1) as (_ & C2 & _). now apply C2. }
    apply Q. }
  destruct (posteriori (norm d) n D (fun x => G d x u) q M C (fst p) (xs t0) (eps d) Dp Hs (Fs t0) P3)
    as [B1 B2].
  split; [exact B1|].
  (* Xs solves the linearised equation at the fixed point *)
  assert (FX : Gt d (xs t0) u Xs ud = Xs).
  { pose proof (Ct _ Hs) as (_ & C2 & _). destruct (C2 _ HXs) as [_ L1].
    pose proof (proj1 (C2 _ L1)) as L2.
    apply nth_ext with 0 0; [congruence|]. intros i _.
    rewrite <- (is_derive_unique _ _ _ (Mg i)). apply is_derive_unique.
    apply is_derive_ext with (fun t => nth i (xs t) 0); [|apply Mv].
    intros t. now rewrite <- Fs. }
  specialize (HL _ Dp). rewrite FX in HL.
  destruct (Ct _ Dp) as (Q & C2 & C3).
  pose proof (C3 _ _ DXp HXs) as K1.
  destruct (C2 _ DXp) as [Lp DG]. pose proof (proj1 (C2 _ DG)) as LG.
  destruct (C2 _ HXs) as [_ DGs]. pose proof (proj1 (C2 _ DGs)) as LGs.
  destruct (Md (Gt d (fst p) u (snd p) ud) (Gt d (fst p) u Xs ud) Xs LG LGs Ln) as (_ & _ & T1).
  destruct (Md (snd p) (Gt d (fst p) u (snd p) ud) Xs Lp LG Ln) as (_ & _ & T2).
  destruct (Md (Gt d (fst p) u (snd p) ud) (snd p) Xs LG Lp Ln) as (_ & Y2 & _).
  set (e := dist (normd d) (Gt d (fst p) u (snd p) ud) Xs) in *.
  rewrite <- Y2 in T2.
  assert (W : L * dist (norm d) (fst p) (xs t0) <= L * (eps d / (1 - q))) by
    (apply Rmult_le_compat_l; assumption).
  assert (W2 : q * dist (normd d) (snd p) Xs <= q * (epsd d + e)) by (apply Rmult_le_compat_l; lra).
  assert (W3 : e * (1 - q) <= q * epsd d + L * (eps d / (1 - q))) by lra.
  apply Rmult_le_reg_r with (1 - q); [lra|]. eapply Rle_trans; [exact W3|].
  right. field. lra.
Qed.

(* ---- fos_reverse ---- *)
(* the map whose fixed point the reverse loop approximates *)
Definition rmap (d : fpi) (s : sub) (n : nat) (xbar z : vec) : vec :=
  vadd (firstn n (Gr d (px s) (pu s) z)) xbar.

Lemma vadd_len a b : length a = length b -> length (vadd a b) = length a.
Proof. revert b. induction a; intros [|c b] H; try discriminate; cbn; auto. Qed.

Lemma rloop_run d s n xbar left : forall k U r,
  (forall z, length (Gr d (px s) (pu s) z) >= n)%nat -> length xbar = n ->
  (length U >= n)%nat ->
  rloop d s n xbar left k U = r ->
  let f := rmap d s n xbar in let z := fun j => iterate f j (firstn n U) in
  (exists j, (j < left)%nat /\ fst r = Z.of_nat (k + j) /\
     snd r = skipn n (Gr d (px s) (pu s) (z j)) /\
     dist (normd d) (z (S j)) (z j) < epsd d) \/
  (fst r = (-1)%Z /\ (forall j, (j < left)%nat -> epsd d <= dist (normd d) (z (S j)) (z j)) /\
     snd r = match left with O => skipn n U | S j => skipn n (Gr d (px s) (pu s) (z j)) end).
Proof.
  induction left as [|left IH]; intros k U r HG Hx HU H; cbv zeta; cbn [rloop] in H.
  - right. subst r. cbn. repeat split; auto. intros. lia.
  - set (U1 := Gr d (px s) (pu s) (firstn n U)) in *.
    assert (LU : length (vadd (firstn n U1) xbar) = n).
    { rewrite vadd_len; rewrite firstn_length; specialize (HG (firstn n U)); fold U1 in HG; lia. }
    assert (S1 : skipn n (vadd (firstn n U1) xbar ++ skipn n U1) = skipn n U1).
    { rewrite skipn_app, LU, Nat.sub_diag, skipn_all2 by lia. reflexivity. }
    assert (F1 : firstn n (vadd (firstn n U1) xbar ++ skipn n U1) = rmap d s n xbar (firstn n U)).
    { rewrite firstn_app, LU, Nat.sub_diag, firstn_O, app_nil_r.
      rewrite firstn_all2 by lia. reflexivity. }
    destruct (rlt _ (epsd d)) eqn:E in H.
    + apply rlt_t in E. left. exists 0%nat. subst r. cbn [fst snd iterate].
      repeat split; try lia; auto.
    + apply rlt_f in E.
      destruct (IH _ _ _ HG Hx ltac:(rewrite app_length, LU; lia) H)
        as [(j & J1 & J2 & J3 & J4)|(J1 & J2 & J3)]; cbv zeta in *; rewrite F1 in *.
      * left. exists (S j).
        rewrite !(iterate_S (rmap d s n xbar)) in *. repeat split; try lia; auto.
      * right. repeat split; auto.
        -- intros [|j] Hj; [exact E|]. assert (j < left)%nat as Hj2 by lia. specialize (J2 j Hj2).
           now rewrite !(iterate_S (rmap d s n xbar)) in J2.
        -- rewrite J3. destruct left as [|j]; [exact S1|].
           now rewrite (iterate_S (rmap d s n xbar)).
Qed.

(* fos_reverse of the outer tape: s is the point the sub tape has kept. zs solves
   the adjoint equation there, B bounds the sub tape's map from weights to the
   adjoints of u, tested by ud. Then what is added to the adjoints of u is, up to
   the tolerance, the transpose of the fixed point's derivative: for every
   tangent Xs of the linearised fixed-point equation,
   <xbar, Xs> = <adjoints of u, ud>.  Whatever U0 contains. *)
Theorem C56_reverse d n DZ q B s xbar U0 zs ud Xs k ub :
  metric (normd d) n -> contracts (normd d) n DZ (rmap d s n xbar) q ->
  (forall z, length (Gr d (px s) (pu s) z) >= n)%nat -> length xbar = n -> (length U0 >= n)%nat ->
  DZ (firstn n U0) -> DZ zs -> zs = rmap d s n xbar zs ->
  (forall z, DZ z ->
     Rabs (ExtSpec.dotl (skipn n (Gr d (px s) (pu s) z)) ud
         - ExtSpec.dotl (skipn n (Gr d (px s) (pu s) zs)) ud) <= B * dist (normd d) z zs) ->
  0 <= B ->
  (* the sub tape's reverse sweep is the transpose of its tangent sweep *)
  (forall z X, length z = n -> length X = n ->
     ExtSpec.dotl z (Gt d (px s) (pu s) X ud) =
     ExtSpec.dotl (firstn n (Gr d (px s) (pu s) z)) X + ExtSpec.dotl (skipn n (Gr d (px s) (pu s) z)) ud) ->
  length Xs = n -> Xs = Gt d (px s) (pu s) Xs ud ->
  fp_rev d s n xbar U0 = (k, ub) -> (0 < k)%Z ->
  Rabs (ExtSpec.dotl ub ud - ExtSpec.dotl xbar Xs) <= B * (epsd d / (1 - q)).
Proof.
  intros M C HG Hx HU D0 Ds Fs HB B0 Ad LX FX E Kp. unfold fp_rev in E.
  destruct (rloop_run _ _ _ _ _ _ _ _ HG Hx HU E) as [(j & J1 & J2 & J3 & J4)|(J1 & _)];
    cbv zeta in *; cbn [fst snd] in *; [|lia].
  set (z := iterate (rmap d s n xbar) j (firstn n U0)) in *.
  assert (Dz : DZ z) by now apply (iter_in _ _ _ _ _ C).
  change (iterate (rmap d s n xbar) (S j) (firstn n U0)) with (rmap d s n xbar z) in J4.
  destruct (posteriori (normd d) n DZ (rmap d s n xbar) q M C z zs (epsd d) Dz Ds Fs J4) as [_ P2].
  assert (Lz : length zs = n) by (apply (D_len _ _ _ _ _ C); assumption).
  assert (Dual : ExtSpec.dotl xbar Xs = ExtSpec.dotl (skipn n (Gr d (px s) (pu s) zs)) ud).
  { pose proof (Ad zs Xs Lz LX) as A. rewrite <- FX in A.
    assert (V : forall a b c, length a = length b -> 
              ExtSpec.dotl (vadd a b) c = ExtSpec.dotl a c + ExtSpec.dotl b c).
    { induction a as [|a0 a IH]; intros [|b0 b] c L; try discriminate; [cbn; destruct c; lra|].
      destruct c as [|c0 c]; cbn; [lra|]. rewrite IH by (now injection L). ring. }
    rewrite Fs in A at 1. unfold rmap in A. rewrite V in A.
    - lra.
    - rewrite firstn_length. specialize (HG zs). lia. }
  rewrite Dual. subst ub. eapply Rle_trans; [apply HB; exact Dz|].
  apply Rmult_le_compat_l; assumption.
Qed.

(* enough steps: a positive return value, from any U0 *)
Theorem C56_reverse_converges d n DZ q s xbar U0 :
  metric (normd d) n -> contracts (normd d) n DZ (rmap d s n xbar) q ->
  (forall z, length (Gr d (px s) (pu s) z) >= n)%nat -> length xbar = n -> (length U0 >= n)%nat ->
  DZ (firstn n U0) -> (2 <= nmaxd d)%nat ->
  q ^ (nmaxd d - 2) * dist (normd d) (rmap d s n xbar (firstn n U0)) (firstn n U0) < epsd d ->
  (0 < fst (fp_rev d s n xbar U0))%Z.
Proof.
  intros M C HG Hx HU D0 Hn He. unfold fp_rev.
  destruct (rloop d s n xbar (nmaxd d - 1) 1 U0) as [k ub] eqn:E.
  destruct (rloop_run _ _ _ _ _ _ _ _ HG Hx HU E) as [(j & J1 & J2 & _)|(J1 & J2 & _)];
    cbv zeta in *; cbn [fst snd] in *; [lia|].
  exfalso. specialize (J2 (nmaxd d - 2)%nat ltac:(lia)).
  pose proof (steps_shrink (normd d) n DZ (rmap d s n xbar) q C (firstn n U0) D0 (nmaxd d - 2)) as S1. lra.
Qed.

(* ---- which data and which point a sweep uses ---- *)
(* After fp_iteration the sub tape has kept the computed fixed point and the
   current parameters, and a sweep that finds the entry by its index finds the
   data of that call, provided no earlier call used that index. *)
Theorem C56_registered tape subt d x0 u w k xf w' :
  fp_iteration tape subt d x0 u w = (k, xf, w') ->
  (forall e, In e (stack w) -> fst e <> count w tape) ->
  (k, xf) = (fst (fst (iteration d x0 u)), snd (iteration d x0 u)) /\
  subs w' subt = mkSub xf u /\ lookup w' (count w tape) = Some d /\
  count w' tape = S (count w tape).
Proof.
  unfold fp_iteration. intros E Hi. rewrite last_last in E. cbn [snd] in E.
  destruct (iteration d x0 u) as [[k1 xu1] xf1] eqn:Ei. injection E as <- <- <-. cbn [fst snd subs count].
  unfold setn. rewrite Nat.eqb_refl. split; [reflexivity|]. split; [reflexivity|]. split; [|now rewrite Nat.eqb_refl].
  unfold lookup. cbn [stack]. clear Ei. induction (stack w) as [|e st IH]; cbn [app List.find].
  - cbn. now rewrite Nat.eqb_refl.
  - destruct (Nat.eqb_spec (fst e) (count w tape)) as [Q|Q].
    + exfalso. apply (Hi e); [now left|assumption].
    + apply IH. intros e' He'. apply Hi. now right.
Qed.

(* a later call on another index does not hide it *)
Theorem C56_kept_entry tape subt d x0 u w k xf w' idx dd :
  fp_iteration tape subt d x0 u w = (k, xf, w') ->
  lookup w idx = Some dd -> lookup w' idx = Some dd.
Proof.
  unfold fp_iteration. intros E Hl. rewrite last_last in E. cbn [snd] in E.
  destruct (iteration d x0 u) as [[k1 xu1] xf1]. injection E as _ _ <-. unfold lookup in *. cbn [stack].
  induction (stack w) as [|e st IH]; cbn [app List.find] in *; [discriminate|].
  destruct (fst e =? idx)%nat; [exact Hl|]. now apply IH.
Qed.
