(** C26 for recorded programs: the sweeps of a trace are the ones of AdModel and VecModel, so
    that the drivers' promises hold without any hypothesis about the sweeps. *)
From Coq Require Import ZArith Reals List Lia Lra Bool.
From Coquelicot Require Import Coquelicot.
Require Import Verif.AdModel Verif.AdRecord Verif.AdSpec Verif.AdReplay Verif.AdRestore
  Verif.AdTidyCalls Verif.AdPlain Verif.AdPlainRun Verif.AdProps Verif.AdSelect
  Verif.AdReal Verif.AdLin Verif.AdReverse Verif.AdReverseProps Verif.AdDeriv Verif.AdTangent
  Verif.AdDerivProps Verif.AdDerivEx Verif.VecModel Verif.VecProofs Verif.VecProps Verif.StatModel Verif.StatProps.
Require Import Verif.DrvModel Verif.DrvSpec Verif.DrvProps.
Import ListNotations.
Unset Asymmetric Patterns.
Local Open Scope R_scope.

(** The sweeps of the trace t: g, gd, gD, gT, gA, gz, gZ are the contents of the buffers that
    are not initialised, ps the parameters, rcr the return code of the reverse sweeps (AdModel
    does not compute it), second order sweeps arbitrary.  A sweep that ends with an exception
    is given a negative code. *)
Record buffers := mkB { g0 : rmem; gd0 : rmem; gD0 : vmem reals; gT0 : rmem; gA0 : rmem; gAv0 : vmem reals;
                        gz0 : nat -> R; gZ0 : nat -> nat -> R; rcr : Z }.
Definition at_ (l : list R) : vec := fun j => nth j l 0.
Definition trace_sweeps (nmm : bool) (ps : nat -> R) (b : buffers) (t : list (op reals))
   (r2 : vec -> vec -> vec -> Z * mat) (hv : nat -> vec -> ten -> Z) (ro : nat -> vec -> ten -> mat -> Z * ten) : sweeps :=
  let st := @counts reals nmm t zero_ctr in
  mk_sweeps (cDeps st) (cInds st)
  (fun x => match @zos_forward reals ps x (g0 b) t with Done m => (frc m, at_ (fy m)) | Failed _ => ((-9)%Z, fun _ => 0) end)
  (fun x v => match @fos_forward reals ps x v (g0 b) (gd0 b) t with
     Some td => (frc (tF td), at_ (fy (tF td)), at_ (tyd td)) | None => ((-9)%Z, fun _ => 0, fun _ => 0) end)
  (fun p x X => match @fov_forward reals p ps x X (g0 b) (gD0 b) t with
     Some td => (frc (vF td), at_ (fy (vF td)), fun j l => nth j (vyd td) (fun _ => 0) l) | None => ((-9)%Z, fun _ => 0, fun _ _ => 0) end)
  (fun x u => match @zos_forward reals ps x (g0 b) t with
     Done m => (rcr b, rz (@fos_reverse reals u (cInds st) (cDeps st) (gT0 b) (gA0 b) (gz0 b) (fk m) t))
     | Failed _ => ((-9)%Z, fun _ => 0) end)
  (fun x q U => match @zos_forward reals ps x (g0 b) t with
     Done m => (rcr b, fun l => rvz (@fov_reverse reals q U (cInds st) (cDeps st) (gT0 b) (gAv0 b) (gZ0 b) (fk m) t) l)
     | Failed _ => ((-9)%Z, fun _ _ => 0) end)
  r2 hv ro.

(** The function a trace computes *)
Definition traced (ps : nat -> R) (g : rmem) (t : list (op reals)) : vec -> vec := fun x j => nth j (outputs ps x g t) 0.

Lemma weighted_S m : forall u y, weighted (S m) u y = u 0%nat * y 0%nat + weighted m (fun j => u (S j)) (fun j => y (S j)).
Proof. induction m as [|m IH]; intros u y; [cbn; ring|]. cbn [weighted] in *. rewrite (IH u y). ring. Qed.
Lemma wsum_at u : forall y j, wsum u j y = weighted (length y) (fun i => u (j + i)%nat) (at_ y).
Proof.
  induction y as [|a y IH]; intros j; [reflexivity|]. cbn [wsum length]. rewrite weighted_S, IH. unfold at_. cbn [nth].
  rewrite Nat.add_0_r. f_equal. apply weighted_ext. intros i _. f_equal. f_equal. lia.
Qed.
Lemma isum_unit z i : forall n a, (a <= i < a + n)%nat -> isum z (AdDerivProps.unitv i) a n = z i.
Proof.
  assert (Z0 : forall n a, (i < a)%nat -> isum z (AdDerivProps.unitv i) a n = 0).
  { induction n as [|n IH]; intros a H; cbn [isum]; [reflexivity|]. rewrite IH by lia. unfold AdDerivProps.unitv.
    destruct (Nat.eqb_spec a i); [lia|ring]. }
  induction n as [|n IH]; intros a H; [lia|]. cbn [isum]. unfold AdDerivProps.unitv at 1. destruct (Nat.eqb_spec a i) as [->|N].
  - rewrite Z0 by lia. ring.
  - rewrite IH by lia. ring.
Qed.
Lemma weighted_der m (u : vec) : forall (f : R -> vec) (d : vec) s0, (forall j, (j < m)%nat -> is_derive (fun s => f s j) s0 (d j)) ->
  is_derive (fun s => weighted m u (f s)) s0 (weighted m u d).
Proof.
  induction m as [|m IH]; intros f d s0 H; cbn [weighted].
  - apply (is_derive_const 0).
  - apply (is_derive_plus (fun s => weighted m u (f s)) (fun s => u m * f s m)).
    + apply IH. intros; apply H; lia.
    + apply (is_derive_scal (fun s => f s m) s0 (u m) (d m)). apply H. lia.
Qed.

Section Trace.
Variables (T0 : mem reals) (chunks : list nat) (last : nat) (ps1 x1 : nat -> R) (p : prog reals) (s1 : rec reals).
Hypothesis W : @wellbehaved reals ps1 x1 p (pstart T0 chunks).
Hypothesis Fp : fprog p = true.
Hypothesis Nv : without_vec_products p.
Hypothesis Hl : (total chunks <= S last)%nat.
Hypothesis Ok : prog_ok (S last) p (fun l => l <? total chunks)%nat (fun _ => false) = true.
Hypothesis Rn : @run reals ps1 x1 p (start T0 chunks) = Some s1.
Variables (nmm : bool) (ps : nat -> R) (b : buffers) (r2 : vec -> vec -> vec -> Z * mat) (hv : nat -> vec -> ten -> Z)
  (ro : nat -> vec -> ten -> mat -> Z * ten).
Let t := finish last s1.
Let s := trace_sweeps nmm ps b t r2 hv ro.
Let F := traced ps (g0 b) t.

Lemma cnt_m x m : @zos_forward reals ps x (g0 b) t = Done m -> (0 <= frc m)%Z ->
  fi m = inds s /\ length (fy m) = deps s.
Proof.
  intros Z C. destruct (@C40_recording reals nmm T0 chunks last ps1 x1 p s1 Nv Rn) as (_ & _ & _ & A & B).
  destruct (@C40_forward_counts reals nmm ps x (g0 b) t m A B Z) as [_ Q]. destruct (Q C) as (Q1 & Q2 & _). split; assumption.
Qed.
Lemma fos_zos x v td : @fos_forward reals ps x v (g0 b) (gd0 b) t = Some td -> @zos_forward reals ps x (g0 b) t = Done (tF td).
Proof.
  unfold fos_forward, zos_forward.
  assert (G : forall t (st : tstate reals), @trun reals ps x v t st = Some td -> @zrun reals ps x t (tF st) = Done (tF td)).
  { induction t0 as [|o t0 IH]; intros st H; cbn [trun zrun] in *; [now injection H as <-|].
    unfold tstep in H. destruct (@zstep reals ps x o (tF st)) as [f|[f|]]; [|injection H as <-; reflexivity|discriminate].
    apply IH in H. exact H. }
  intros H. apply G in H. exact H.
Qed.
Lemma fov_zos q x X td : @fov_forward reals q ps x X (g0 b) (gD0 b) t = Some td -> @zos_forward reals ps x (g0 b) t = Done (vF td).
Proof.
  unfold fov_forward, zos_forward.
  assert (G : forall t (st : vstate reals), @vrun reals q ps x X t st = Some td -> @zrun reals ps x t (vF st) = Done (vF td)).
  { induction t0 as [|o t0 IH]; intros st H; cbn [vrun zrun] in *; [now injection H as <-|].
    unfold vstep in H. destruct (@zstep reals ps x o (vF st)) as [f|[f|]]; [|injection H as <-; reflexivity|discriminate].
    apply IH in H. exact H. }
  intros H. apply G in H. exact H.
Qed.
Lemma F_at x m : @zos_forward reals ps x (g0 b) t = Done m -> forall j, F x j = at_ (fy m) j.
Proof. intros Z j. unfold F, traced, outputs. now rewrite Z. Qed.

(** At a point where every operation of the trace is differentiable, the sweeps are exact. *)
Theorem C26_trace_exact x : smooth_run ps x t 0 (g0 b) -> exact1 F s x.
Proof.
  intros Sm.
  assert (Adj : forall u i m, @zos_forward reals ps x (g0 b) t = Done m -> (0 <= frc m)%Z -> (i < inds s)%nat ->
     partial (fun x => weighted (deps s) u (F x)) x i (rz (@fos_reverse reals u (inds s) (deps s) (gT0 b) (gA0 b) (gz0 b) (fk m) t) i) /\
     forall gA gz, partial (fun x => weighted (deps s) u (F x)) x i (rz (@fos_reverse reals u (inds s) (deps s) (gT0 b) gA gz (fk m) t) i)).
  { intros u i m Z C I.
    assert (Q : forall gA gz, partial (fun x => weighted (deps s) u (F x)) x i (rz (@fos_reverse reals u (inds s) (deps s) (gT0 b) gA gz (fk m) t) i)).
    2: { split; [apply Q|exact Q]. }
    intros gA gz. destruct (cnt_m _ _ Z C) as [N M].
    assert (E : @zexec reals ps x t (@mkF reals (g0 b) 0 [] 3%Z []) = inl m) by now apply zrun_path.
    destruct (@trun_some ps x (AdDerivProps.unitv i) t (mkT (@mkF reals (g0 b) 0 [] 3%Z []) (fun _ => 0) []) m E) as [td Hf].
    destruct (@C14_directional_derivative T0 chunks last ps1 x1 p s1 ps 0 (line x (DrvModel.unitv i)) (AdDerivProps.unitv i) (g0 b)
              (fun _ => 0) m td) as [Len G]; auto.
    { intros k. unfold line. auto_derive; [exact Logic.I|]. unfold DrvModel.unitv, AdDerivProps.unitv. ring. }
    all: try (replace (line x (DrvModel.unitv i) 0) with x
      by (apply FunctionalExtensionality.functional_extensionality; intros k; unfold line; ring); assumption).
    assert (D : wsum u 0 (tyd td) = rz (@fos_reverse reals u (inds s) (deps s) (gT0 b) gA gz (fk m) t) i).
    { rewrite <- N, <- M. erewrite (@C15_adjoint T0 chunks last ps1 x1 p t ps x (AdDerivProps.unitv i) u (g0 b) (fun _ => 0) (gT0 b) gA gz m td); auto.
      - apply isum_unit. lia.
      - unfold record. rewrite Rn. reflexivity.
      - now apply smooth_regular_run. }
    assert (Len' : @length R (tyd td) = deps s) by (rewrite <- M; exact Len).
    rewrite <- D, wsum_at, Len'. unfold partial, directional.
    apply (@weighted_der (deps s) (fun i0 => u (0 + i0)%nat) (fun s0 => F (line x (DrvModel.unitv i) s0)) (at_ (tyd td)) 0).
    intros j _. exact (G j). }
  constructor; unfold s at 1, trace_sweeps; cbn [zos fos fov rev1 revv deps inds].
  - intros rc y. destruct (@zos_forward reals ps x (g0 b) t) as [m|] eqn:Z; intros Q; injection Q as <- <-; [|lia].
    intros _ j _. symmetry. now apply F_at.
  - intros v rc y yd. destruct (@fos_forward reals ps x v (g0 b) (gd0 b) t) as [td|] eqn:Hf; intros Q; injection Q as <- <- <-; [|lia].
    intros C j _. pose proof (fos_zos _ _ _ Hf) as Z. split; [symmetry; now apply F_at|].
    destruct (@C14_directional_derivative T0 chunks last ps1 x1 p s1 ps 0 (line x v) v (g0 b) (gd0 b) (tF td) td) as [_ G]; auto.
    { intros k. unfold line. auto_derive; [exact I|]. ring. }
    all: try (replace (line x v 0) with x
      by (apply FunctionalExtensionality.functional_extensionality; intros k; unfold line; ring); assumption).
    exact (G j).
  - intros q X rc y Y. destruct (@fov_forward reals q ps x X (g0 b) (gD0 b) t) as [td|] eqn:Hf; intros Q; injection Q as <- <- <-; [|lia].
    intros C j _. pose proof (fov_zos _ _ _ _ Hf) as Z. split; [symmetry; now apply F_at|]. intros l L.
    destruct (@C38_jacobian_product T0 chunks last ps1 x1 p s1 ps x q X (g0 b) (gD0 b) (vF td) td) as (_ & _ & G); auto.
    exact (G l j L).
  - intros u rc z Hz. destruct (@zos_forward reals ps x (g0 b) t) as [m|] eqn:Z; [|cbn in Hz; lia].
    unfold s at 1, trace_sweeps; cbn [rev1 revv]. rewrite Z. intros Q; injection Q as <- <-. intros _ i I. now apply (Adj u i m eq_refl Hz).
  - intros q U rc Zz Hz. destruct (@zos_forward reals ps x (g0 b) t) as [m|] eqn:Z; [|cbn in Hz; lia].
    unfold s at 1, trace_sweeps; cbn [rev1 revv]. rewrite Z. intros Q; injection Q as <- <-. intros _ l i L I.
    rewrite C39_rows by (auto; eapply fprog_no_subscript; eauto).
    now apply (Adj (U l) i m eq_refl Hz).
Qed.

End Trace.

Section Program.
Variables (T0 : mem reals) (chunks : list nat) (last : nat) (x1 : nat -> R) (p : prog reals) (s1 : rec reals).
Variables (nmm : bool) (ps : nat -> R) (b : buffers) (r2 : vec -> vec -> vec -> Z * mat) (hv : nat -> vec -> ten -> Z)
  (ro : nat -> vec -> ten -> mat -> Z * ten).
(** The function the user's program computes *)
Definition computed : vec -> vec := fun x j =>
  match @plain reals ps x p (pstart T0 chunks) with Some q => nth j (py q) 0 | None => 0 end.
(** Near x the program takes the branches it took when it was recorded. *)
Definition same_branches (x : vec) : Prop := forall v, locally 0 (fun a => exists q,
  @wellbehaved reals ps (line x v a) p (pstart T0 chunks) /\
  @plain reals ps (line x v a) p (pstart T0 chunks) = Some q /\ sd s1 = pd q).
(** What is asked of the recorded program: supported calls (C14, C15, C40) *)
Definition recorded : Prop :=
  @wellbehaved reals ps x1 p (pstart T0 chunks) /\ fprog p = true /\ without_vec_products p /\
  (total chunks <= S last)%nat /\
  prog_ok (S last) p (fun l => l <? total chunks)%nat (fun _ => false) = true /\
  @run reals ps x1 p (start T0 chunks) = Some s1.
Let t := finish last s1.
Let s := trace_sweeps nmm ps b t r2 hv ro.

Lemma line0 x v : line x v 0 = x.
Proof. apply FunctionalExtensionality.functional_extensionality; intros k; unfold line; ring. Qed.
Lemma replay y q : recorded -> @wellbehaved reals ps y p (pstart T0 chunks) ->
  @plain reals ps y p (pstart T0 chunks) = Some q -> sd s1 = pd q ->
  exists m, @zos_forward reals ps y (g0 b) t = Done m /\ (0 <= frc m)%Z /\ (forall j, traced ps (g0 b) t y j = computed y j).
Proof.
  intros (_ & _ & _ & _ & _ & Rn) A B C.
  destruct (@C12_replay_completes reals reals_laws T0 chunks last ps x1 y p s1 q (g0 b)) as (m & Z & N & Y); auto.
  exists m. split; [exact Z|]. split; [exact N|]. intros j. rewrite (@F_at last s1 ps b _ _ Z). unfold computed. rewrite B. unfold at_. now rewrite Y.
Qed.

(** The sweeps of the trace are exact for the program itself. *)
Theorem C26_program_exact x : recorded -> same_branches x -> smooth_run ps x t 0 (g0 b) -> exact1 computed s x.
Proof.
  intros Rd Nb Sm. destruct Rd as (W & Fp & Nv & Hl & Ok & Rn).
  assert (Rd : recorded) by (repeat split; assumption).
  pose proof (@C26_trace_exact T0 chunks last ps x1 p s1 W Fp Nv Hl Ok Rn nmm ps b r2 hv ro x Sm) as E. fold t s in E.
  assert (L : forall v, locally 0 (fun a => forall j, traced ps (g0 b) t (line x v a) j = computed (line x v a) j)).
  { intros v. eapply filter_imp; [|exact (Nb v)]. intros a (q & A & B & C).
    destruct (@replay (line x v a) q Rd A B C) as (m & _ & _ & Q). exact Q. }
  assert (V : forall j, traced ps (g0 b) t x j = computed x j).
  { pose proof (locally_singleton _ _ (L (fun _ => 0))) as Q. cbv beta in Q. rewrite line0 in Q. exact Q. }
  assert (D : forall j v d, directional (fun x => traced ps (g0 b) t x j) x v d -> directional (fun x => computed x j) x v d).
  { intros j v d. apply is_derive_ext_loc. eapply filter_imp; [|exact (L v)]. intros a Q. apply Q. }
  assert (P : forall u i d, partial (fun x => weighted (deps s) u (traced ps (g0 b) t x)) x i d ->
     partial (fun x => weighted (deps s) u (computed x)) x i d).
  { intros u i d. apply is_derive_ext_loc. eapply filter_imp; [|exact (L (DrvModel.unitv i))]. intros a Q. cbv beta.
    apply weighted_ext. intros j _. now rewrite Q. }
  constructor.
  - intros rc y Z C j J. rewrite <- V. eapply zos_ok; eauto.
  - intros v rc y yd Z C j J. rewrite <- V. destruct (fos_ok _ _ _ E v rc y yd Z C j J). split; auto.
  - intros q X rc y Y Z C j J. rewrite <- V. destruct (fov_ok _ _ _ E q X rc y Y Z C j J). split; auto.
  - intros u rc z Q1 Q2 Q3 i I. apply P. eapply rev1_ok; eauto.
  - intros q U rc Zz Q1 Q2 Q3 l i J I. apply P. eapply revv_ok; eauto.
Qed.
Lemma zos_fine x : recorded -> same_branches x -> (0 <= fst (zos s x))%Z.
Proof.
  intros Rd Nb. pose proof (locally_singleton _ _ (Nb (fun _ => 0))) as (q & A & B & C). rewrite line0 in A, B.
  destruct (@replay x q Rd A B C) as (m & Z & N & _). unfold s, trace_sweeps. cbn [zos]. rewrite Z. exact N.
Qed.

(** End to end: gradient(tag, n, x, g) on the trace of a program with one output fills g with
    the partial derivatives of that output. *)
Theorem C26_recorded_gradient x r k : recorded -> same_branches x -> smooth_run ps x t 0 (g0 b) ->
  (0 <= rcr b)%Z -> length (sy s1) = 1%nat -> (1 <= si s1)%nat ->
  exists rc g k', gradient s (si s1) x r k = Some (rc, g, k') /\ (0 <= rc)%Z /\
  (forall i, (i < si s1)%nat -> partial (fun x => computed x 0%nat) x i (g i)) /\
  (forall i, (si s1 <= i)%nat -> g i = r i).
Proof.
  intros Rd Nb Sm Rc M N. pose proof (C26_program_exact x Rd Nb Sm) as E. pose proof (zos_fine x Rd Nb) as Z.
  destruct Rd as (_ & _ & Nv & _ & _ & Rn).
  destruct (@C40_recording reals nmm T0 chunks last ps x1 p s1 Nv Rn) as (Ci & Cd & _ & _ & _).
  assert (Di : inds s = si s1) by exact Ci. assert (Dd : deps s = 1%nat) by (rewrite <- M; exact Cd).
  destruct (C26_gradient computed s x r k E Dd ltac:(rewrite Di; exact N)) as (rc & g & k' & A & B & C).
  rewrite Di in *. exists rc, g, k'. split; [exact A|].
  assert (0 <= rc)%Z as R.
  { unfold gradient, run_zos in A. rewrite shape_ok in A by (try symmetry; auto).
    destruct (zos s x) as [rc0 y] eqn:Zx. cbn [fst] in Z. destruct (Nat.ltb_spec (si s1) 1); [lia|].
    destruct (Z.ltb_spec rc0 0); [lia|]. unfold run_rev1 in A. rewrite shape_ok in A by (try symmetry; auto).
    destruct (rev1 s x (fun _ => 1)) as [rc' z] eqn:Zr.
    assert (rc' = rcr b) as ->.
    { clear -Zr Zx Z Nb. unfold s, trace_sweeps in Zr, Zx. cbn [rev1 zos] in Zr, Zx.
      destruct (zos_forward _ _ _ _); [congruence|]. injection Zx as <- _. lia. }
    injection A as <- <- <-. rewrite mindec_min. lia. }
  auto.
Qed.
(** jacobian, whichever of the two modes the shape selects *)
Theorem C26_recorded_jacobian x J k : recorded -> same_branches x -> smooth_run ps x t 0 (g0 b) ->
  exists rc J' k', jacobian s (length (sy s1)) (si s1) x J k = Some (rc, J', k') /\
  ((0 <= rc)%Z -> forall j i, (j < length (sy s1))%nat -> (i < si s1)%nat -> partial (fun x => computed x j) x i (J' j i)) /\
  (forall j i, (length (sy s1) <= j)%nat \/ (si s1 <= i)%nat -> J' j i = J j i).
Proof.
  intros Rd Nb Sm. pose proof (C26_program_exact x Rd Nb Sm) as E.
  destruct Rd as (_ & _ & Nv & _ & _ & Rn).
  destruct (@C40_recording reals nmm T0 chunks last ps x1 p s1 Nv Rn) as (Ci & Cd & _ & _ & _).
  assert (Di : inds s = si s1) by exact Ci. assert (Dd : deps s = length (sy s1)) by exact Cd.
  pose proof (C26_jacobian computed s x J k E) as Q. rewrite Di, Dd in Q. exact Q.
Qed.
End Program.

(** The hypotheses are met: y = atan(x1 * sin(x0)) at every point. *)
Theorem C26_recorded_met (T0 : mem reals) (ps x1 x : nat -> R) (b : buffers) : exists s1,
  recorded T0 [2%nat] 6 x1 ex14 s1 ps /\ same_branches T0 [2%nat] ex14 s1 ps x /\
  smooth_run ps x (finish 6 s1) 0 (g0 b) /\ length (sy s1) = 1%nat /\ si s1 = 2%nat /\
  forall y, computed T0 [2%nat] ex14 ps y 0%nat = atan (y 1%nat * Rtrigo_def.sin (y 0%nat)).
Proof.
  destruct (ex14_ok T0 (g0 b) (fun _ => 0) ps ps x1 x (fun _ => 0))
    as (s1 & m & td & A1 & A2 & A3 & A4 & A5 & A6 & A7 & A8 & A9 & A10).
  assert (Nv : without_vec_products ex14) by (cbn; tauto).
  exists s1.
  assert (Q : forall y, exists q, @plain reals ps y ex14 (@pstart reals T0 [2%nat]) = Some q /\ pd q = [] /\
    py q = [atan (y 1%nat * Rtrigo_def.sin (y 0%nat))]).
  { intros y. eexists. split; [cbn; reflexivity|]. split; cbn; reflexivity. }
  assert (D : sd s1 = [] /\ si s1 = 2%nat /\ length (sy s1) = 1%nat).
  { assert (E : option_map (fun s => (sd s, si s, length (sy s))) (@run reals ps x1 ex14 (@start reals T0 [2%nat]))
        = Some ([], 2%nat, 1%nat)) by reflexivity.
    rewrite A5 in E. cbn [option_map] in E. injection E as E1 E2 E3. auto. }
  destruct D as (D1 & D2 & D3).
  split; [repeat (split; [assumption|]); assumption|]. split; [|split; [exact A6|split; [exact D3|split; [exact D2|]]]].
  - intros v. apply filter_forall. intros a. destruct (Q (line x v a)) as (q & B1 & B2 & _). exists q.
    split; [apply ex14_wb|]. split; [exact B1|]. now rewrite D1, B2.
  - intros y. unfold computed. destruct (Q y) as (q & -> & _ & ->). reflexivity.
Qed.
