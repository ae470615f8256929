(* C49: hov_forward propagates p Taylor polynomials at once; each of them comes out as
   hos_forward computes it alone, and so as the coefficients of the recorded function. *)
From Coq Require Import List ZArith Bool Arith Lia Reals Lra.
From Coquelicot Require Import Coquelicot.
From Flocq Require Import IEEE754.BinarySingleNaN.
Require Import Verif.AdModel Verif.AdRecord Verif.AdSpec Verif.AdReplay Verif.AdRestore
  Verif.AdTidyCalls Verif.AdPlain Verif.AdPlainRun Verif.AdProps Verif.AdSelect
  Verif.AdReal Verif.AdLin Verif.AdReverse Verif.AdReverseProps Verif.AdDeriv Verif.AdTangent
  Verif.AdDerivProps Verif.AdDerivEx Verif.Binary64
  Verif.HosModel Verif.HosSpec Verif.HosTay Verif.HosFun Verif.HosLoops Verif.HosProofs
  Verif.HosProps Verif.HosEx Verif.HovModel Verif.HovProofs.
Import ListNotations.
Set Implicit Arguments.
Unset Asymmetric Patterns.
Local Close Scope R_scope.
Local Open Scope nat_scope.

(* ------------------------------------------------------------------ *)
(* Any arithmetic                                                       *)

Section Any.
Variable K : Arith.
Notation val := (V K).

(* every operation the sweep of the values performs satisfies Ok *)
Fixpoint along_run (Ok : bop K -> mem K -> Prop) (ps x : nat -> val) (t : list (op K))
  (f : fstate K) : Prop :=
  match t with
  | [] => True
  | o :: t' => Ok (resolve (fT f) o) (fT f) /\
      match zstep ps x o f with inl f' => along_run Ok ps x t' f' | inr _ => True end
  end.
Definition dirs_fine (k : nat) := along_run (dir_fine k).

(* coefficients of direction l, dependent by dependent *)
Definition agree (k l : nat) (Y : list (nat -> nat -> val)) (Y' : list (nat -> val)) : Prop :=
  Forall2 (fun y y' => forall i, i < k -> y l i = y' i) Y Y'.

Lemma wrun_dir (Ok : bop K -> mem K -> Prop) p k ps x xc l : l < p -> 0 < k ->
  (forall n b T C D, same k l C D -> Ok b T ->
     same k l (wval p k ps x xc n b T C) (hval k ps x (fun j => xc j l) n b T D)) ->
  forall t (s : wstate K) (h : hstate K),
  wF s = hF h -> same k l (wC s) (hC h) -> agree k l (wY s) (hY h) ->
  along_run Ok ps x t (wF s) ->
  match wrun p k ps x xc t s, hrun k ps x (fun j => xc j l) t h with
  | Some s', Some h' => wF s' = hF h' /\ agree k l (wY s') (hY h')
  | None, None => True
  | _, _ => False
  end.
Proof.
  intros L Hk X. induction t as [|o t IH]; intros s h Ef Ec Ey Fi; cbn [wrun hrun]; auto.
  cbn [along_run] in Fi. destruct Fi as [F1 F2]. unfold wstep, hstep. rewrite <- Ef in *.
  destruct (zstep ps x o (wF s)) as [f'|[f'|]]; cbn [wF hF wY hY]; auto.
  assert (Ew : wfail p k (resolve (fT (wF s)) o) = hfail k (resolve (fT (wF s)) o)).
  { unfold wfail, hfail. destruct (resolve (fT (wF s)) o); auto.
    rewrite (proj2 (Nat.ltb_lt 0 p)) by lia. reflexivity. }
  rewrite Ew. destruct (hfail k _); auto.
  apply IH; cbn [wF hF wC hC wY hY]; auto.
  apply Forall2_app; auto. destruct (resolve (fT (wF s)) o); cbn; constructor; auto.
Qed.

(* The sweep with p Taylor polynomials of degree k succeeds exactly when the scalar sweep
   with polynomial l does, with the same values and return code, and the coefficients it
   stores for polynomial l are those of the scalar sweep - provided no logarithm is taken
   at 0 and no power at 0 (dir_fine).  g, gc: contents of the uninitialised buffers. *)
Theorem C49_directions p k ps x (xc : nat -> nat -> nat -> val) (g : mem K) (gc : rows K) t l :
  l < p -> 0 < k -> dirs_fine k ps x t (@mkF K g 0 [] 3%Z []) ->
  match @hov_forward K p k ps x xc g gc t,
        @hos_forward K k ps x (fun j => xc j l) g (fun loc i => gc loc (l * k + i)) t with
  | Some w, Some h => wF w = hF h /\ agree k l (wY w) (hY h)
  | None, None => True
  | _, _ => False
  end.
Proof.
  intros L Hk Fi. unfold hov_forward, hos_forward.
  apply (@wrun_dir (dir_fine k)); cbn [wF hF wC hC wY hY]; auto.
  - intros n b T C D E F. apply wval_same; auto.
  - intros loc i I. reflexivity.
  - constructor.
Qed.

(* one polynomial: every trace *)
Lemma same0_put k (C D : rows K) res q v : same k 0 C D -> same k 0 (put C res q v) (put D res q v).
Proof.
  intros E loc i I. specialize (E loc i I). cbn [Nat.mul Nat.add] in *. unfold put.
  destruct ((loc =? res) && (i =? q)); auto.
Qed.
Lemma wlog_one k arg res v (C D : rows K) : 0 < k -> same k 0 C D ->
  same k 0 (wlog 1 k arg res v C)
    (logrow k arg res (if eqb K v (zero K) && any_neg k arg D then vnan K else dvd K (one K) v) D).
Proof.
  intros Hk E. unfold wlog. cbn [up fst snd]. change (0 * k) with 0.
  pose proof (wany_same Hk arg E) as W. cbn [Nat.mul] in W. rewrite W.
  apply (@wlog_dir K k Hk 0 arg res (if eqb K v (zero K) && any_neg k arg D then vnan K else dvd K (one K) v)
           (C, fun _ => zero K) D). exact E.
Qed.
Lemma wpowfrac_one k res c (C D : rows K) : same k 0 C D ->
  same k 0 (wpowfrac 1 k res c C) (powfrac k res c D).
Proof.
  intros E. unfold wpowfrac, powfrac. cbn [up].
  refine (proj1 (@up_inv2 _ _ k (fun _ (a b : rows K * nat) => same k 0 (fst a) (fst b) /\ snd a = snd b)
                   _ _ (C, 0) (D, 0) _ _)); [now split|].
  intros i [c1 q] [d1 q'] I [E1 Eq]. cbn [fst snd] in *. subst q'. cbv zeta.
  destruct (ltb K (one K) (sub K c (ofnat K i)));
  destruct (ltb K (sub K c (ofnat K i)) (one K) && gt0 K (sub K c (ofnat K i)));
  destruct (lt0 K (sub K c (ofnat K i))); cbn [fst snd]; split; auto; repeat apply same0_put; auto.
Qed.
Lemma wpowint_one k arg res c (C D : rows K) : 0 < k -> same k 0 C D ->
  same k 0 (wpowint 1 k arg res c C) (powint k arg res c D).
Proof.
  intros Hk E. unfold wpowint, powint. cbn [dn up fst snd].
  apply up_inv2 with (P := fun _ => same k 0).
  - apply dn_inv2; auto. intros i c1 d1 I E1. apply same_put; auto. apply up_eq; auto.
    intros j acc J. rewrite (E arg j), (E arg (i - j - 1)) by lia. reflexivity.
  - intros m c1 d1 _ E1. apply dn_inv2; auto. intros i c2 d2 I E2. apply same_put; auto. apply up_eq; auto.
    intros j acc J. rewrite (E2 res j), (E arg (i - j - 1)) by lia. reflexivity.
Qed.
Lemma wval_one k ps x xc n b T (C D : rows K) : 0 < k -> same k 0 C D ->
  same k 0 (wval 1 k ps x xc n b T C) (hval k ps x (fun j => xc j 0) n b T D).
Proof.
  intros Hk E. assert (L : 0 < 1) by lia.
  destruct b; try (apply wval_same; auto; exact I).
  - cbn [wval hval]. now apply wlog_one.
  - cbn [wval hval]. cbv zeta. destruct (eqb K (T arg) (zero K)); [|now apply wpow_same].
    destruct (leb K c (zero K)); [apply wrow_same; auto|].
    destruct (negb _); [now apply wpowfrac_one|].
    destruct (eqb K c (one K)); [apply wrow_same; auto|now apply wpowint_one].
Qed.
Theorem C49_single k ps x (xc : nat -> nat -> nat -> val) (g : mem K) (gc : rows K) t : 0 < k ->
  match @hov_forward K 1 k ps x xc g gc t, @hos_forward K k ps x (fun j => xc j 0) g gc t with
  | Some w, Some h => wF w = hF h /\ agree k 0 (wY w) (hY h)
  | None, None => True
  | _, _ => False
  end.
Proof.
  intros Hk. unfold hov_forward, hos_forward.
  apply (@wrun_dir (fun _ _ => True)); cbn [wF hF wC hC wY hY]; auto.
  - intros n b T C D E _. now apply wval_one.
  - intros loc i I. reflexivity.
  - constructor.
  - generalize (@mkF K g 0 [] 3%Z []). induction t as [|o t IH]; intros f; cbn [along_run]; auto. split; auto.
    destruct (zstep ps x o f); auto.
Qed.
End Any.

(* ------------------------------------------------------------------ *)
(* Over the reals: the coefficients of the recorded function             *)
Local Open Scope R_scope.

Lemma smooth_dirs k ps x t : forall (f : fstate reals), smooth_run ps x t (fi f) (fT f) ->
  @dirs_fine reals k ps x t f.
Proof.
  induction t as [|o t IH]; intros f; unfold dirs_fine in *; cbn [smooth_run along_run]; auto.
  intros [A B]. split.
  - destruct (@resolve reals (fT f) o); cbn [dir_fine]; auto; cbn [smooth] in A.
    + cbn. unfold Reqb. destruct (Req_EM_T (fT f arg) 0); [lra|reflexivity].
    + cbn. unfold Reqb at 1. destruct (Req_EM_T (fT f arg) 0); [lra|discriminate].
  - unfold zstep. destruct (oob (fT f) o); auto.
    destruct (zabort (resolve (fT f) o) (fT f)); auto.
Qed.

Lemma agree_nth (K : Arith) k l Y Y' (d : nat -> nat -> V K) d' j i : @agree K k l Y Y' ->
  (forall i, d l i = d' i) -> (i < k)%nat -> nth j Y d l i = nth j Y' d' i.
Proof.
  intros H E I. revert j. induction H as [|y y' Y Y' Hy _ IH]; intros j; destruct j; cbn [nth]; auto.
Qed.
Lemma taylor_coef k f s0 a a' : taylor k f s0 a -> (forall i, (i <= k)%nat -> a i = a' i) -> taylor k f s0 a'.
Proof. intros [A B] E. split; auto. intros i I. rewrite B, E by auto. reflexivity. Qed.

Definition norows : nat -> nat -> R := fun _ _ => 0.

(* A program is recorded at x1; at x the sweep over its trace does not change branch and
   every operation is smooth there.  If hov_forward with p polynomials
   x_i + sum_j X[i][l][j] s^(j+1) returns, it stores for dependent j and each l the Taylor
   coefficients of the j-th output of the recorded function along polynomial l. *)
Theorem C49_taylor T0 chunks last ps1 x1 q s1 p k
  ps (x : nat -> R) (xc : nat -> nat -> nat -> R) (g : rmem) (gc : rrows) m w :
  @wellbehaved reals ps1 x1 q (pstart T0 chunks) -> fprog q = true ->
  @run reals ps1 x1 q (start T0 chunks) = Some s1 ->
  let t := finish last s1 in
  (0 < k)%nat ->
  smooth_run ps x t 0 g ->
  @zos_forward reals ps x g t = Done m -> (0 <= frc m)%Z ->
  @hov_forward reals p k ps x xc g gc t = Some w ->
  forall l, (l < p)%nat ->
  fy (wF w) = fy m /\ length (wY w) = length (fy m) /\
  forall j, taylor k (fun s => nth j (outputs ps (path k x (fun i => xc i l) s) g t) 0) 0
                     (joined (nth j (fy m) 0) (nth j (wY w) norows l)).
Proof.
  intros W Fp Hr t Hk Sm Hz Hc Hf l L.
  pose proof (@C49_directions reals p k ps x xc g gc t l L Hk (@smooth_dirs k ps x t (@mkF reals g 0 [] 3%Z []) Sm)) as E.
  rewrite Hf in E. destruct (@hos_forward reals k ps x (fun j => xc j l) g _ t) as [h|] eqn:Hh; [|destruct E].
  destruct E as [Ef Ey].
  destruct (@C21_path T0 chunks last ps1 x1 q s1 k ps x (fun i => xc i l) g _ m h W Fp Hr Hk Sm Hz Hc Hh) as [Le G].
  assert (Hm : hF h = m).
  { destruct (@C21_taylor T0 chunks last ps1 x1 q s1 k ps 0 (path k x (fun i => xc i l)) (fun i => xc i l) g
      (fun loc i => gc loc (l * k + i)%nat) m h) as (Q & _); rewrite ?path_0; auto.
    intros i. pose proof (path_taylor k x (fun i => xc i l) i) as P. rewrite path_0 in P. exact P. }
  split; [now rewrite Ef, Hm|]. split.
  - rewrite <- Le. clear -Ey. unfold agree in Ey. now induction Ey; cbn; auto.
  - intros j. eapply taylor_coef; [exact (G j)|]. intros [|i] I; cbn [joined]; auto.
    symmetry. apply (@agree_nth reals k l _ _ _ _ j i Ey); auto.
Qed.

(* the hypotheses are met: y = atan(x1 * sin(x0)), p directions, degree k *)
Lemma C49_met p k (T0 g : rmem) (gc : rrows) xc (ps ps1 x1 x : nat -> R) : (0 < k)%nat -> (0 < p)%nat ->
  exists s1 m w,
  @wellbehaved reals ps1 x1 ex14 (@pstart reals T0 [2%nat]) /\ fprog ex14 = true /\
  @run reals ps1 x1 ex14 (@start reals T0 [2%nat]) = Some s1 /\
  smooth_run ps x (finish 6 s1) 0 g /\
  @zos_forward reals ps x g (finish 6 s1) = Done m /\ (0 <= frc m)%Z /\
  @hov_forward reals p k ps x xc g gc (finish 6 s1) = Some w.
Proof.
  intros Hk Hp.
  destruct (@ex21_ok k T0 g (fun loc i => gc loc (0 * k + i)%nat) (fun j => xc j 0%nat) ps ps1 x1 x Hk)
    as (s1 & m & st & A & B & D & E & F & G & H).
  pose proof (@C49_directions reals p k ps x xc g gc (finish 6 s1) 0 Hp Hk (@smooth_dirs k ps x _ (@mkF reals g 0 [] 3%Z []) E)) as Q.
  rewrite H in Q. destruct (hov_forward _ _ _ _ _ _ _ _) as [w|] eqn:Ew; [|destruct Q].
  exists s1, m, w. tauto.
Qed.

(* ------------------------------------------------------------------ *)
(* Where it goes wrong                                                  *)
Section Double.
Variable M : Libm.
Let K := binary64 M.

(* log(x0) at x0 = 0, two directions -1 and +1, degree 1: alone, direction +1 gives
   +inf; together with direction -1 it gives NaN *)
Definition hlog_prog : prog K :=
  Do (CInd K 0) (Do (CUn K ULog (Fresh 1) 0) (Do (CDep K 1) (Ret K))).
Definition hlogdirs : nat -> nat -> nat -> V K := fun _ l _ => if Nat.eqb l 0 then bneg b1 else b1.
Lemma hwitness (A : Type) (r : option A) (P : A -> Prop) :
  match r with Some s => P s | None => False end -> exists s, r = Some s /\ P s.
Proof. destruct r; [eauto|tauto]. Qed.
Theorem C49_log_at_zero_refuted : forall (ps : nat -> V K) (g : mem K) (gc gc1 : rows K),
  exists s, @run K ps (fun _ => bz) hlog_prog (@start K (fun _ => bz) []) = Some s /\
  let t := finish 1 s in
  match @hov_forward K 2 1 ps (fun _ => bz) hlogdirs g gc t,
        @hos_forward K 1 ps (fun _ => bz) (fun i => hlogdirs i 1) g gc1 t with
  | Some v, Some u =>
      map (fun row => B2SF (row 1%nat 0%nat : b64)) (wY v) = [SpecFloat.S754_nan] /\
      map (fun row => B2SF (row 0%nat : b64)) (hY u) = [SpecFloat.S754_infinity false]
  | _, _ => False
  end.
Proof.
  intros ps g gc gc1. apply (@hwitness _ (run ps (fun _ => bz) hlog_prog (@start K (fun _ => bz) []))).
  vm_compute. auto.
Qed.

End Double.

(* pow(x0, 2) at x0 = 0, two polynomials s, degree 4, with the floor of IEEE 754 and any
   other functions of libm.  Alone, hos_forward stores 0, NaN, 0, 0 (the true coefficients
   are 0, 1, 0, 0); hov_forward stores 0, NaN, 0, NaN for the first and 0, 0, 0, 0 for the
   second: two equal inputs have different results. *)
Section Pow.
Variables (fn : fname -> b64 -> b64) (pw : b64 -> b64 -> b64) (cl : b64 -> b64).
Let M := {| m_fn := fn; m_pow := pw; m_ceil := cl;
            m_floor := fun v => @Bnearbyint 53 1024 He mode_DN v |}.
Let K := binary64 M.
Definition hpow_prog : prog K :=
  Do (CInd K 0) (Do (CPow K (Fresh 1) 0 b2) (Do (CDep K 1) (Ret K))).
Definition hpowdirs : nat -> nat -> nat -> V K := fun _ _ i => if Nat.eqb i 0 then b1 else bz.
Definition shows (r : nat -> V K) : list SpecFloat.spec_float :=
  map (fun i => B2SF (r i : b64)) (seq 0 4).
Theorem C49_pow_at_zero_refuted : forall (ps : nat -> V K) (g : mem K) (gc gc1 : rows K),
  exists s, @run K ps (fun _ => bz) hpow_prog (@start K (fun _ => bz) []) = Some s /\
  let t := finish 1 s in
  let O := SpecFloat.S754_zero false in let N := SpecFloat.S754_nan in
  match @hov_forward K 2 4 ps (fun _ => bz) hpowdirs g gc t,
        @hos_forward K 4 ps (fun _ => bz) (fun i => hpowdirs i 0) g gc1 t with
  | Some v, Some u =>
      map (fun row => shows (row 0%nat)) (wY v) = [[O; N; O; N]] /\
      map (fun row => shows (row 1%nat)) (wY v) = [[O; O; O; O]] /\
      map shows (hY u) = [[O; N; O; O]]
  | _, _ => False
  end.
Proof.
  intros ps g gc gc1. apply (@hwitness _ (run ps (fun _ => bz) hpow_prog (@start K (fun _ => bz) []))).
  vm_compute. auto.
Qed.
End Pow.
Print Assumptions C49_taylor.
Print Assumptions C49_pow_at_zero_refuted.
