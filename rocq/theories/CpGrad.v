(** C24 in terms of derivatives: if the reverse sweep of one step is the adjoint of its
    derivative, the result over the whole loop is the gradient of the composition. *)
From Coq Require Import ZArith Reals List Lia.
From Coquelicot Require Import Coquelicot.
From Verif Require Import CpModel CpSpec CpProps.
Local Open Scope R_scope.

Section Grad.
Variable dim : nat.
Definition vec := nat -> R.
Fixpoint dot_upto (n : nat) (u w : vec) : R := match n with O => 0 | S n => dot_upto n u w + u n * w n end.
Definition dot := dot_upto dim.
(** w is the velocity at 0 of the curve g in the first dim components *)
Definition velocity (g : R -> vec) (w : vec) : Prop := forall i, (i < dim)%nat -> is_derive (fun t => g t i) 0 (w i).
(** at every state, along every curve: the step is differentiable and u . (derivative of
    the step) = (back u) . (velocity) *)
Definition adjoint_of (f : vec -> vec) (back : vec -> vec -> vec) : Prop :=
  forall g w, velocity g w -> exists w', velocity (fun t => f (g t)) w' /\ forall u, dot u w' = dot (back (g 0) u) w.

Lemma dot_ext : forall n u w w', (forall i, (i < n)%nat -> w i = w' i) -> dot_upto n u w = dot_upto n u w'.
Proof. induction n as [|n IH]; intros u w w' H; cbn; [reflexivity|]. rewrite (IH u w w'), (H n) by (intros; try apply H; lia). reflexivity. Qed.

Lemma dot_derive : forall n u (y : R -> vec) w, (forall i, (i < n)%nat -> is_derive (fun t => y t i) 0 (w i)) ->
  is_derive (fun t => dot_upto n u (y t)) 0 (dot_upto n u w).
Proof.
  induction n as [|n IH]; intros u y w H; cbn [dot_upto].
  - exact (is_derive_const 0 0).
  - apply (is_derive_plus (fun t => dot_upto n u (y t)) (fun t => u n * y t n)); [apply IH; intros; apply H; lia|].
    apply (is_derive_scal (fun t => y t n) 0 (u n)). apply H. lia.
Qed.

Lemma loop_adjoint : forall f back, adjoint_of f back -> forall n g w, velocity g w ->
  exists w', velocity (fun t => fst (states (fun s : vec * unit => (f (fst s), tt)) n (g t, tt))) w' /\
    forall u, dot u w' = dot (adjoint (fun s : vec * unit => (f (fst s), tt)) (fun s => back (fst s)) n (g 0, tt) u) w.
Proof.
  intros f back H. induction n as [|n IH]; intros g w V.
  - exists w. split; [exact V|reflexivity].
  - destruct (H g w V) as (w1 & V1 & E1). destruct (IH (fun t => f (g t)) w1 V1) as (w2 & V2 & E2).
    exists w2. split; [exact V2|]. intros u. cbn [adjoint]. rewrite E2. cbn [fst] in *. rewrite E1. reflexivity.
Qed.

(** The adjoint that the reverse sweep over a checkpointed loop returns is the gradient of
    the weighted result of the loop *)
Theorem C24_gradient : forall TP f back (trace : vec * unit -> TP * (vec * unit)) zos rev (c : mach vec unit TP) x,
  let fd := fun s : vec * unit => (f (fst s), tt) in
  adjoint_of f back ->
  faithful fd (fun s => back (fst s)) trace rev ->
  admissible (CpModel.steps (inf c)) (checkpoints (inf c)) ->
  retaping (inf c) <> 0%Z \/ reusable (fun s => back (fst s)) trace zos rev ->
  let F := fun y => fst (states fd (Z.to_nat (CpModel.steps (inf c))) (y, tt)) in
  exists fuel c1, (forall k, checkpointing fd trace (fuel + k) true x c = Some (c1, F x)) /\
    forall u x' d', exists fuel' c2 z,
      (forall k, fos_reverse fd trace zos rev (fuel' + k) u x' (mk_mach (inf c1) (num c1) d' tt) = Some (c2, z, 0%Z)) /\
      forall g w, g 0 = x -> velocity g w -> is_derive (fun t => dot u (F (g t))) 0 (dot z w).
Proof.
  intros TP f back trace zos rev c x fd Ha Hf Ad Hr F.
  destruct (C24_adjoint _ _ _ _ fd (fun s => back (fst s)) trace zos rev c x Hf Ad Hr (or_intror (fun g g' => match g, g' with tt, tt => eq_refl end)))
    as (fuel & c1 & _ & K & _ & Re).
  exists fuel, c1. split; [intros k; rewrite K; destruct (glob c); reflexivity|].
  intros u x' d'. destruct (Re u x' d' tt) as (fuel' & c2 & K2 & _). exists fuel', c2. eexists. split; [exact K2|].
  intros g w G V. destruct (loop_adjoint f back Ha (Z.to_nat (CpModel.steps (inf c))) g w V) as (w' & V' & E).
  destruct (glob c). rewrite <- G. fold fd in E. cbv zeta. rewrite <- E. unfold dot. apply dot_derive. exact V'.
Qed.
End Grad.

(** a step that meets the hypothesis: every component is squared *)
Theorem C24_gradient_nontrivial : forall dim, adjoint_of dim (fun x i => x i * x i) (fun x u i => 2 * x i * u i).
Proof.
  intros dim g w V. exists (fun i => 2 * g 0 i * w i). split.
  - intros i I. specialize (V i I).
    assert (is_derive (fun y : R => y * y) (g 0 i) (2 * g 0 i)) as Q by (auto_derive; [exact Logic.I|ring]).
    pose proof (is_derive_comp (fun y : R => y * y) (fun t => g t i) 0 (2 * g 0 i) (w i) Q V) as C.
    replace (2 * g 0 i * w i) with (scal (w i) (2 * g 0 i)) by (unfold scal; cbn; unfold mult; cbn; ring). exact C.
  - intros u. unfold dot. induction dim as [|n IH]; cbn [dot_upto]; [reflexivity|]. rewrite IH by (intros i I; apply V; lia). f_equal. ring.
Qed.
