(** C50: tensor_eval on the trace of a program: the drivers' calls of fov_forward and
    hov_forward are the ones of VecModel and HovModel. *)
From Coq Require Import ZArith Reals List Lia Lra Bool FunctionalExtensionality.
From Coquelicot Require Import Coquelicot.
Require Import Verif.AdModel Verif.AdRecord Verif.AdSpec Verif.AdReplay Verif.AdRestore
  Verif.AdTidyCalls Verif.AdPlain Verif.AdPlainRun Verif.AdProps Verif.AdSelect
  Verif.AdReal Verif.AdLin Verif.AdReverse Verif.AdReverseProps Verif.AdDeriv Verif.AdTangent
  Verif.AdDerivProps Verif.AdDerivEx Verif.VecModel Verif.VecProofs Verif.VecProps Verif.StatModel Verif.StatProps.
Require Import Verif.DrvModel Verif.DrvSpec Verif.DrvProps Verif.DrvTrace.
Require Import Verif.HosModel Verif.HosSpec Verif.HosTay Verif.HosProofs Verif.HosProps Verif.HosEx
  Verif.HovModel Verif.HovProofs Verif.HovProps.
From Verif Require TnEnum.
From Verif Require Import TnModel TnSpec TnInterp TnCoeffModel TnCoeffEval TnEval TnTaylor.
Import ListNotations.
Unset Asymmetric Patterns.
Local Open Scope R_scope.
Notation rrows := (HosModel.rows reals).

(** the directions of one call as the sweeps get them: direction l is the l-th list *)
Definition dirs (X : list (list R)) (i l : nat) : R := nth i (nth l X []) 0.

(** fov_forward (d = 1) or hov_forward (d > 1) as tensor_eval calls them, taylor.cpp:776-778
    and 815-817 with multma2vec2 and multma3vec2 (317-342: the coefficients of degree 2 .. d
    of the directions are 0).  g, gd, gc: contents of the buffers that are not initialised,
    which may differ from call to call. *)
Definition trace_coeffs (ps : nat -> R) (g : list (list R) -> rmem) (gd : list (list R) -> vmem reals)
  (gc : list (list R) -> rrows) (t : list (op reals)) (x : vec) (d : nat)
  (X : list (list R)) (j k r : nat) : R :=
  if (d =? 1)%nat then
    match @fov_forward reals (length X) ps x (dirs X) (g X) (gd X) t with
    | Some v => nth j (vyd v) (fun _ => 0) k
    | None => 0
    end
  else
    match @hov_forward reals (length X) d ps x (fun i l q => if (q =? 0)%nat then dirs X i l else 0) (g X) (gc X) t with
    | Some w => nth j (wY w) norows k (r - 1)%nat
    | None => 0
    end.
(** the values: the last sweep leaves F(x) in y, taylor.cpp:845-846; every sweep computes them
    like zos_forward (vF, wF in VecModel and HovModel) *)
Definition trace_values (ps : nat -> R) (g : rmem) (t : list (op reals)) (x : vec) (j : nat) : R :=
  match @zos_forward reals ps x g t with Done m => nth j (fy m) 0 | Failed _ => 0 end.

(** x + S z *)
Definition moved (n p : nat) (S : nat -> nat -> R) (x z : vec) : vec :=
  fun i => x i + (if (i <? n)%nat then TnInterp.rsum (fun u => S i u * z u) (seq 0 p) else 0).

(** no cbrt: hov_forward ends with an exception on it (C21_cbrt_refuted) *)
Definition cbrt_free (t : list (op reals)) : Prop :=
  forall o T, In o t -> match resolve T o with CbrtOp _ _ _ => False | _ => True end.

Lemma hov_some p k ps x xc : forall t (s : wstate reals) m, cbrt_free t -> @zrun reals ps x t (wF s) = Done m ->
  exists w, @wrun reals p k ps x xc t s = Some w.
Proof.
  induction t as [|o t IH]; intros s m Nc Z; cbn [wrun zrun] in *; [eauto|]. unfold wstep.
  destruct (@zstep reals ps x o (wF s)) as [f|[f|]] eqn:E; [|eauto|discriminate].
  assert (W : @wfail reals p k (resolve (fT (wF s)) o) = false).
  { specialize (Nc o (fT (wF s)) (or_introl eq_refl)). destruct (resolve (fT (wF s)) o); auto. contradiction. }
  rewrite W. apply (IH _ m); [|exact Z]. intros o' T I. apply Nc. now right.
Qed.
Lemma fov_some p ps x X : forall t (s : vstate reals) m, @zrun reals ps x t (vF s) = Done m ->
  exists w, @vrun reals p ps x X t s = Some w.
Proof.
  induction t as [|o t IH]; intros s m Z; cbn [vrun zrun] in *; [eauto|]. unfold vstep.
  destruct (@zstep reals ps x o (vF s)) as [f|[f|]] eqn:E; [|eauto|discriminate].
  apply (IH _ m). exact Z.
Qed.

Lemma nth_map_seq (f : nat -> R) n i e : (i < n)%nat -> nth i (map f (seq 0 n)) e = f i.
Proof.
  intros H. rewrite (nth_indep _ e (f 0%nat)) by (rewrite map_length, seq_length; lia).
  now rewrite map_nth, seq_nth.
Qed.

Section Program.
Variables (T0 : mem reals) (chunks : list nat) (last : nat) (x1 : nat -> R) (q : prog reals) (s1 : rec reals).
Variables (ps : nat -> R) (g : list (list R) -> rmem) (gd : list (list R) -> vmem reals)
  (gc : list (list R) -> rrows) (gz : rmem).
Let t := finish last s1.
Let F := computed T0 chunks q ps.

(** the Taylor coefficients of F_j along the line x + s v *)
Definition line_coef (x : vec) (j : nat) (v : list R) (r : nat) : R :=
  Derive_n (fun s => F (DrvSpec.line x (fun i => nth i v 0) s) j) r 0 / INR (fact r).

Lemma replayed g1 y w : recorded T0 chunks last x1 q s1 ps -> @wellbehaved reals ps y q (pstart T0 chunks) ->
  @plain reals ps y q (pstart T0 chunks) = Some w -> sd s1 = pd w ->
  exists m, @zos_forward reals ps y g1 t = Done m /\ (0 <= frc m)%Z /\ forall j, nth j (fy m) 0 = F y j.
Proof.
  intros (_ & _ & _ & _ & _ & Rn) A B C.
  destruct (@C12_replay_completes reals reals_laws T0 chunks last ps x1 y q s1 w g1) as (m & Z & N & Y); auto.
  exists m. split; [exact Z|]. split; [exact N|]. intros j. unfold F, computed. now rewrite B, Y.
Qed.
Lemma near_outputs g1 x v : recorded T0 chunks last x1 q s1 ps -> same_branches T0 chunks q s1 ps x ->
  locally 0 (fun s => forall j, nth j (outputs ps (DrvSpec.line x v s) g1 t) 0 = F (DrvSpec.line x v s) j).
Proof.
  intros Rd Nb. eapply filter_imp; [|exact (Nb v)]. intros a (w & A & B & C) j.
  destruct (@replayed g1 _ w Rd A B C) as (m & Z & _ & Q). unfold outputs. rewrite Z. apply Q.
Qed.

Lemma trace_line_coef x d X j k r : recorded T0 chunks last x1 q s1 ps -> same_branches T0 chunks q s1 ps x ->
  (forall X, smooth_run ps x t 0 (g X)) -> (d = 1%nat \/ cbrt_free t) ->
  (k < length X)%nat -> (1 <= r <= d)%nat ->
  trace_coeffs ps g gd gc t x d X j k r = line_coef x j (nth k X []) r.
Proof.
  intros Rd Nb Sm Nc Hk Hr. pose proof Rd as (W & Fp & _ & _ & _ & Rn).
  pose proof (locally_singleton _ _ (Nb (fun _ => 0))) as (w & A & B & C). rewrite line0 in A, B.
  destruct (@replayed (g X) x w Rd A B C) as (m & Z & N & Q).
  unfold trace_coeffs, line_coef. destruct (Nat.eqb_spec d 1) as [->|Nd].
  - assert (r = 1%nat) as -> by lia.
    destruct (@fov_some (length X) ps x (dirs X) t (mkV (@mkF reals (g X) 0 [] 3%Z []) (gd X) []) m Z) as (td & Ht).
    fold (@fov_forward reals (length X) ps x (dirs X) (g X) (gd X) t) in Ht. rewrite Ht.
    destruct (@C38_jacobian_product T0 chunks last ps x1 q s1 ps x (length X) (dirs X) (g X) (gd X) m td W Fp Rn (Sm X) Z N Ht) as (_ & _ & D).
    specialize (D k j Hk). cbn [fact INR]. cbn [Derive_n].
    symmetry. rewrite Rdiv_1. apply is_derive_unique. eapply is_derive_ext_loc; [|exact D].
    eapply filter_imp; [|exact (near_outputs (g X) x (fun i => nth i (nth k X []) 0) Rd Nb)].
    cbv beta. intros s E. rewrite <- E. reflexivity.
  - destruct Nc as [Nc|Nc]; [contradiction|].
    match goal with |- context [@hov_forward reals _ _ _ _ ?f _ _ _] => set (xc := f) end.
    destruct (@hov_some (length X) d ps x xc t (mkW (@mkF reals (g X) 0 [] 3%Z []) (gc X) []) m Nc Z) as (wd & Hw).
    fold (@hov_forward reals (length X) d ps x xc (g X) (gc X) t) in Hw. rewrite Hw.
    destruct (@C49_taylor T0 chunks last ps x1 q s1 (length X) d ps x xc (g X) (gc X) m wd W Fp Rn ltac:(lia) (Sm X) Z N Hw k Hk) as (_ & _ & D).
    destruct (D j) as [_ D2]. specialize (D2 r ltac:(lia)).
    assert (E : Derive_n (fun s => F (DrvSpec.line x (fun i => nth i (nth k X []) 0) s) j) r 0
              = Derive_n (fun s => nth j (outputs ps (path d x (fun i => xc i k) s) (g X) (finish last s1)) 0) r 0).
    { apply Derive_n_ext_loc. eapply filter_imp; [|exact (near_outputs (g X) x (fun i => nth i (nth k X []) 0) Rd Nb)].
      cbv beta. intros s E. rewrite <- E. unfold t. do 2 f_equal. apply functional_extensionality. intros i.
      unfold path, DrvSpec.line. f_equal. destruct d as [|d]; [lia|]. rewrite HosTay.rsum_shift.
      rewrite HosTay.rsum_zero by (intros i0 _; unfold xc; cbn; ring). unfold xc, dirs. cbn. ring. }
    rewrite E, D2. destruct r as [|r]; [lia|]. cbn [joined]. replace (S r - 1)%nat with r by lia.
    change (V reals) with R in *. field. apply INR_fact_neq_0.
Qed.

(** tensor_eval(tag, m, n, d, p, x, tensor, S) on the trace of a program: whatever G is the
    family of partial derivatives of z -> F(x + S z) around z = 0, every derivative up to order
    d is stored at the position tensor_address reports, whatever was evaluated before. *)
Theorem C50_tensor_eval x d p (S : nat -> nat -> R) (G : nat -> list nat -> vec -> R) :
  recorded T0 chunks last x1 q s1 ps -> same_branches T0 chunks q s1 ps x ->
  (forall X, smooth_run ps x t 0 (g X)) -> (d = 1%nat \/ cbrt_free t) ->
  (1 <= p)%nat -> (1 <= d)%nat ->
  let m := length (sy s1) in let n := si s1 in
  (forall j, (j < m)%nat -> partials p d (fun z => F (moved n p S x z) j) (G j)) ->
  exists N, forall fuel c t0, (N <= fuel)%nat -> reachable c ->
    exists c' A, tensor_eval (trace_coeffs ps g gd gc t x d) (trace_values ps gz t x) fuel c m n d p S t0 = Some (c', A) /\
      (forall j, (j < m)%nat -> A j 0%nat = F x j) /\
      (forall j r, (j < m)%nat -> derivative p d r -> r <> repeat 0%nat d ->
         A j (tensor_address d (array r)) = G j (exps p r) (fun _ => 0)).
Proof.
  intros Rd Nb Sm Nc P D m n HG.
  destruct (C34_tensor_eval m n d p S (line_coef x) (fun j l => G j l (fun _ => 0)) P D) as (N & HN).
  - intros j jm r J L E Hr. destruct (line_taylor p d _ _ (fun u => INR (nth u jm 0%nat)) (HG j J)) as [_ Q].
    specialize (Q r ltac:(lia)). unfold line_coef.
    rewrite (Derive_n_ext _ (fun s => F (moved n p S x (along0 (fun u => INR (nth u jm 0%nat)) s)) j)).
    + rewrite Q. unfold coef.
      replace (map (fun u => INR (nth u jm 0%nat)) (seq 0 p)) with (real jm); [field; apply INR_fact_neq_0|].
      unfold real. rewrite <- L. clear. induction jm; [reflexivity|]. cbn [length seq map]. f_equal.
      rewrite <- seq_shift, map_map. exact IHjm.
    + intros s. f_equal. apply functional_extensionality. intros i. unfold DrvSpec.line, moved. f_equal.
      destruct (Nat.ltb_spec i n).
      * rewrite nth_map_seq by assumption. rewrite <- rsum_scal. apply rsum_ext. intros u _. unfold along0. ring.
      * rewrite nth_overflow by (rewrite map_length, seq_length; lia). ring.
  - exists N. intros fuel c t0 Fu Rc.
    destruct (HN fuel (trace_coeffs ps g gd gc t x d) (trace_values ps gz t x) c t0 Fu Rc) as (c' & A & E & V & Dv).
    + intros X j k r K J Hr. now apply trace_line_coef.
    + exists c', A. split; [exact E|]. split; [|exact Dv].
      intros j J. rewrite V by exact J. unfold trace_values.
      pose proof (locally_singleton _ _ (Nb (fun _ => 0))) as (w & A1 & B1 & C1). rewrite line0 in A1, B1.
      destruct (@replayed gz x w Rd A1 B1 C1) as (mm & Z & _ & Q). rewrite Z. apply Q.
Qed.
End Program.

(** ** The hypotheses are met *)
(** F(x) = atan(x1 * sin(x0)) at any point, all derivatives of order 1 and 2 *)
Definition ex_id (i u : nat) : R := if (i =? u)%nat then 1 else 0.
Definition ex_G (x : vec) (j : nat) (l : list nat) (z : vec) : R :=
  let a := x 0%nat + z 0%nat in let b := x 1%nat + z 1%nat in
  let w := b * Rtrigo_def.sin a in let D := 1 + w * w in
  match l with
  | [0; 0]%nat => atan w
  | [1; 0]%nat => b * Rtrigo_def.cos a / D
  | [0; 1]%nat => Rtrigo_def.sin a / D
  | [2; 0]%nat => - (b * Rtrigo_def.sin a) / D - 2 * w * (b * Rtrigo_def.cos a) * (b * Rtrigo_def.cos a) / (D * D)
  | [1; 1]%nat => Rtrigo_def.cos a / D - 2 * w * (b * Rtrigo_def.cos a) * Rtrigo_def.sin a / (D * D)
  | [0; 2]%nat => - (2 * w * Rtrigo_def.sin a * Rtrigo_def.sin a) / (D * D)
  | _ => 0
  end.
Lemma ex_D w : 1 + w * w <> 0.
Proof. nra. Qed.
Lemma ex_partials x j (f : vec -> R) : (forall y, f y = atan (y 1%nat * Rtrigo_def.sin (y 0%nat))) ->
  partials 2 2 (fun z => f (moved 2 2 ex_id x z)) (ex_G x j).
Proof.
  intros Hf. split.
  - exists (mkposreal 1 Rlt_0_1). intros z _. rewrite Hf. unfold moved. cbn. f_equal. f_equal; [|f_equal]; ring.
  - intros l L E. exists (mkposreal 1 Rlt_0_1). intros z _ c. unfold directional. cbn [seq TnInterp.rsum].
    destruct l as [|a [|b [|]]]; try discriminate L. cbn [bump].
    destruct a as [|[|a]], b as [|[|b]]; try (cbn in E; lia); unfold ex_G, DrvSpec.line.
    + auto_derive; [trivial|]. rewrite !Rmult_0_l, !Rplus_0_r. field. try apply ex_D.
    + auto_derive; [repeat split; try (rewrite !Rmult_0_l, !Rplus_0_r; apply ex_D)|]. rewrite ?Rmult_0_l, ?Rplus_0_r. field. apply ex_D.
    + auto_derive; [repeat split; try (rewrite !Rmult_0_l, !Rplus_0_r; apply ex_D)|]. rewrite ?Rmult_0_l, ?Rplus_0_r. field. apply ex_D.
Qed.
Lemma ex14_cbrt_free (T0 : rmem) : cbrt_free (map (@Plain reals) (ex14_ops T0)).
Proof.
  intros o T Hi. pose proof I as I0. apply in_map_iff in Hi. destruct Hi as (b & <- & Hi). cbn [resolve].
  pose proof (proj1 (List.Forall_forall _ _) (ex14_nofail 1 T0) b Hi) as N. destruct b; try exact I0; discriminate N.
Qed.
Lemma C50_met (T0 : rmem) (ps x1 x : nat -> R) (g : list (list R) -> rmem) : exists s1,
  recorded T0 [2%nat] 6 x1 ex14 s1 ps /\ same_branches T0 [2%nat] ex14 s1 ps x /\
  (forall X, smooth_run ps x (finish 6 s1) 0 (g X)) /\ cbrt_free (finish 6 s1) /\
  length (sy s1) = 1%nat /\ si s1 = 2%nat /\
  forall j, (j < 1)%nat -> partials 2 2 (fun z => computed T0 [2%nat] ex14 ps (moved 2 2 ex_id x z) j) (ex_G x j).
Proof.
  destruct (C26_recorded_met T0 ps x1 x (mkB (g []) (g []) (fun _ _ => 0) (g []) (g []) (fun _ _ => 0) (fun _ => 0) (fun _ _ => 0) 0%Z))
    as (s1 & A & B & _ & D & E & Fx).
  assert (Et : finish 6 s1 = map (@Plain reals) (ex14_ops T0)).
  { destruct (ex14_rec T0 ps x1) as (s2 & R2 & F2). destruct A as (_ & _ & _ & _ & _ & R1).
    rewrite R1 in R2. injection R2 as <-. exact F2. }
  exists s1. split; [exact A|]. split; [exact B|]. rewrite Et. split; [intros X; apply ex14_smooth|].
  split; [apply ex14_cbrt_free|]. split; [exact D|]. split; [exact E|].
  intros j J. assert (j = 0%nat) as -> by lia. apply (ex_partials x 0%nat (fun y => computed T0 [2%nat] ex14 ps y 0%nat)). exact Fx.
Qed.
Print Assumptions C50_tensor_eval.
