(* C57: a case that meets the hypotheses, and where the property fails. *)
From Coq Require Import List ZArith Bool Arith Lia Sorted Reals Lra.
From Coquelicot Require Import Coquelicot.
Require Import Verif.AdModel Verif.AdRecord Verif.AdSpec Verif.AdReplay Verif.AdRestore
  Verif.AdTidyCalls Verif.AdPlain Verif.AdPlainRun Verif.AdProps
  Verif.AdReal Verif.AdLin Verif.AdReverse Verif.AdReverseProps Verif.AdDeriv Verif.AdTangent
  Verif.AdDerivProps Verif.AdDerivEx Verif.SpModel Verif.SpSpec Verif.SpProofs Verif.SpTangent Verif.SpProps
  Verif.VecModel Verif.VecProofs Verif.VecProps Verif.AnfProps Verif.AnfEx Verif.SjModel Verif.SjSpec Verif.SjProps.
From Flocq Require Import IEEE754.BinarySingleNaN.
Require Import Verif.Binary64.
Import ListNotations.
Set Implicit Arguments.
Unset Asymmetric Patterns.
Local Open Scope R_scope.

(* ------------------------------------------------------------------ *)
(* y0 = x0 * x1, y1 = x1 + x2: columns 0 and 2 get the same colour       *)

Definition ex57_rows : list (list nat) := [[0; 1]; [1; 2]]%nat.
Definition ex57_cp : colpack :=
  mkC (fun rows _ n => if list_eq_dec (list_eq_dec Nat.eq_dec) rows ex57_rows
                       then (2%nat, fun j => (if j =? 1 then 1 else 0)%nat) else (n, fun j => j))
      (fun _ m _ => (m, fun i => i)).
Definition ex57_big : colpack := mkC (fun _ _ n => (n, fun j => j)) (fun _ m _ => (m, fun i => i)).
Lemma ex57_big_right : colours_right ex57_big.
Proof.
  intros rows m n L B. split; (split; [cbn; auto|cbn; auto]).
Qed.
Lemma ex57_cp_right : colours_right ex57_cp.
Proof.
  intros rows m n L B. split; [|split; cbn; auto].
  unfold ex57_cp, by_cols. destruct (list_eq_dec _ rows ex57_rows) as [->|]; cbn [fst snd].
  - split.
    + intros j _. destruct (j =? 1)%nat; lia.
    + intros r j j' [<-|[<-|[]]] [<-|[<-|[]]] [<-|[<-|[]]]; cbn; intros E; try reflexivity; discriminate E.
  - split; auto.
Qed.

Definition ex57 : prog reals :=
  Do (CInd reals 0) (Do (CInd reals 1) (Do (CInd reals 2)
  (Do (CBin reals BMul (Fresh 3) 0 1) (Do (CBin reals BAdd (Fresh 4) 1 2)
  (Do (CDep reals 3) (Do (CDep reals 4) (Ret reals))))))).
Definition ex57_ops (T0 : rmem) : list (bop reals) :=
  [TakeStock reals 3 0 (map T0 (seq 0 3)); AssignInd reals 0; AssignInd reals 1; AssignInd reals 2;
   AssignD0 reals 3; MultAA reals 0 1 3; AssignD0 reals 4; PlusAA reals 1 2 4;
   AssignDep reals 3; AssignDep reals 4; DeathNot reals 0 4].
Definition ex57_trace T0 := map (@Plain reals) (ex57_ops T0).
Local Opaque Rplus Rmult Ropp Rinv Rminus IZR Rabs Reqb.
Lemma ex57_recorded T0 ps1 x1 : recorded T0 [3%nat] 4 ps1 x1 ex57 (ex57_trace T0).
Proof.
  split; [unfold ex57; repeat wb_step|]. split; [reflexivity|]. split; [cbn; lia|]. split; reflexivity.
Qed.
Lemma ex57_nostop T0 : List.Forall nostop (ex57_ops T0).
Proof. repeat constructor. Qed.
Lemma linear_rc_57 (T0 : rmem) (ps x : nat -> R) (g : rmem) : (0 <= frc (tF (pure_run ps x (fun _ => 0%R) (ex57_ops T0)
  (@mkT reals (@mkF reals g 0%nat [] 3%Z []) (fun _ => 0%R) []))))%Z.
Proof. replace (frc _) with 3%Z by reflexivity. lia. Qed.
Lemma ex57_smooth (T0 : rmem) (ps x : nat -> R) (g : rmem) : smooth_run ps x (ex57_trace T0) 0 g.
Proof. unfold ex57_trace, ex57_ops. cbn [map]. do 11 (apply smooth_step; [exact I|intros ? _]). exact I. Qed.
Lemma ex57_nopow (T0 : rmem) (ps x : nat -> R) (g : rmem) : no_pow_at_zero ps x g (ex57_trace T0).
Proof. unfold no_pow_at_zero. lazy. tauto. Qed.
Lemma ex57_sweep tight (T0 : rmem) (ps x : nat -> R) (g : rmem) : exists ms, sweeps_right tight (ex57_trace T0) ps x g ms /\
  length (fy ms) = 2%nat /\ fi ms = 3%nat /\ frc ms = 3%Z.
Proof.
  set (s0 := @mkT reals (@mkF reals g 0 [] 3%Z []) (fun _ => 0) []).
  destruct (@pure_ok ps x (fun _ => 0) (ex57_ops T0) (ex57_nostop T0) s0) as [Z _].
  exists (tF (pure_run ps x (fun _ => 0) (ex57_ops T0) s0)).
  split; [|split; [reflexivity|split; reflexivity]].
  split; [exact Z|].
  split. { apply linear_rc_57. }
  split. { apply ex57_smooth. }
  split. { apply ex57_nopow. }
  destruct tight; reflexivity.
Qed.
Lemma ex57_pattern tight T0 ps x g : @pattern_of reals tight (ex57_trace T0) ps x g = SRows ex57_rows.
Proof. destruct tight; reflexivity. Qed.

(* the hypotheses of C57_first_call, C57_any_call and C57_repeated_call are met *)
Lemma C57_hypotheses_met (T0 : rmem) (ps1 x1 ps x : nat -> R) (g : rmem) cm : exists ms st,
  recorded T0 [3%nat] 4 ps1 x1 ex57 (ex57_trace T0) /\ colours_right ex57_cp /\
  (forall tight, sweeps_right tight (ex57_trace T0) ps x g ms) /\
  (forall tight, @pattern_of reals tight (ex57_trace T0) ps x g = SRows ex57_rows) /\
  (0 < fi ms)%nat /\ (0 < length (fy ms))%nat /\
  reached ex57_cp cm (ex57_trace T0) (length (fy ms)) (fi ms) st /\ seed st <> None.
Proof.
  destruct (@ex57_sweep true T0 ps x g) as (ms & S1 & L & N & F).
  pose proof (@ex57_recorded T0 ps1 x1) as Rec. pose proof (fun tight => @ex57_pattern tight T0 ps x g) as Pt.
  destruct (@ex57_sweep false T0 ps x g) as (ms2 & S2 & _).
  assert (E : ms2 = ms).
  { destruct S1 as [A _], S2 as [B _]. rewrite A in B. now injection B. }
  subst ms2.
  exists ms, (state_of ex57_cp cm ex57_rows (length (fy ms)) (fi ms)).
  split; [apply ex57_recorded|]. split; [exact ex57_cp_right|].
  split; [intros [|]; assumption|]. split; [intros tight; apply ex57_pattern|].
  split; [lia|]. split; [lia|]. split; [|destruct cm; discriminate].
  clear S1. destruct S2 as (Hz & Hc & Sm & Np & Pa). specialize (Pt false).
  destruct (@jacobian_exists T0 [3%nat] 4 ps1 x1 ex57 (ex57_trace T0) ps x g ms Rec Hz Hc Sm) as [z J].
  generalize dependent (ex57_trace T0). intros t Rec Pt Hz Sm Np Pa J.
  destruct (@pattern_covers false t ps x g ms _ _ z ex57_rows J Pt Pa Np Hc) as [L2 Cov].
  destruct (@pattern_shape false t ps x g ex57_rows Pt) as [P1 P2].
  assert (I : fi ms = inputs t).
  { pose proof (@zrun_path reals ps x t _ _ Hz Hc) as E. now apply zexec_inputs in E. }
  rewrite <- I in P2.
  destruct (@compute_right ex57_cp cm t ps x g ms (length (fy ms)) (fi ms) z ex57_rows
    (fun _ _ => 0) (fun _ => 0) (fun _ _ => 0) (fun _ _ => 0) [] ex57_cp_right J Hz Hc L2 P1 P2 Cov) as (es & C & _).
  destruct (@build_state ex57_cp cm ex57_rows (length (fy ms)) (fi ms) (fresh reals)) as [k Hk].
  refine (@reached_ret reals ex57_cp cm t (length (fy ms)) (fi ms) (fresh reals) false ps x true g (fun _ _ => 0) (fun _ => 0) (fun _ _ => 0) (fun _ _ => 0) [] (frc ms) _ es (@reached_fresh reals _ _ _ _ _) _).
  clear -Hk C Pt. unfold sparse_jac. rewrite Pt, Hk.
  destruct (Z.ltb_spec (Z.of_nat k) 0); [lia|]. exact C.
Qed.

(* the numbers that come out, with two colours for three columns *)
Lemma C57_met T0 ps x (g : rmem) gd gT gA gz :
  exists st v00 v01 v11 v12,
  @sparse_jac reals ex57_cp Column false false (ex57_trace T0) ps x 2 3 true g gd gT gA gz (fresh reals) []
    = Returns 3 st [((0, 0), v00); ((0, 1), v01); ((1, 1), v11); ((1, 2), v12)]%nat /\
  seedClms st = 2%nat /\
  v00 = x 1%nat /\ v01 = x 0%nat /\ v11 = 1 /\ v12 = 1.
Proof.
  do 5 eexists. split; [vm_compute; reflexivity|]. split; [reflexivity|].
  split; [|split; [|split]]; lazy; ring.
Qed.

(* ------------------------------------------------------------------ *)
(* Where it fails                                                       *)

(* A repeated call with the other compression mode is accepted and uses the seed matrix of
   the first mode with colours that were never computed. *)
Theorem C57_other_mode_refuted T0 ps x (g : rmem) gd gT gA gz :
  exists st es,
  @sparse_jac reals ex57_cp Column false false (ex57_trace T0) ps x 2 3 true g gd gT gA gz (fresh reals) []
    = Returns 3 st es /\
  @sparse_jac reals ex57_cp Row false false (ex57_trace T0) ps x 2 3 false g gd gT gA gz st es
    = @Undefined reals.
Proof. do 2 eexists. split; vm_compute; reflexivity. Qed.

Definition undefined (K : Arith) (r : result K) : bool :=
  match r with Undefined _ => true | _ => false end.

Section Double.
Variable M : Libm.
Let K := binary64 M.
Definition at1 (a : b64) : nat -> V K := fun _ => a.
Definition at2 (a b : b64) : nat -> V K := fun i => if Nat.eqb i 0 then a else b.
Definition shown (es : list (entry K)) := map (fun e => (fst e, B2SF (snd e : b64))) es.

(* y = |x| or -x, recorded at x = 1.  sparse_jac with repeat = 0 in tight mode at 1 works, at -1 it
   reports the change of branch, and the repeated call at 1 that follows passes the test
   of the kept data and reads rows that are null. *)
Theorem C57_failed_first_call_refuted : forall (ps : nat -> V K) (g : mem K) (gd : vmem K) gT gA gz,
  exists s, @run K ps (at1 b1) (branchy K) (@start K (at1 bz) []) = Some s /\
  let t := finish 1 s in
  match @sparse_jac K ex57_big Column true false t ps (at1 b1) 1 1 true g gd gT gA gz (fresh K) [] with
  | Returns c st es => (0 <= c)%Z /\ shown es = [((0, 0)%nat, B2SF b1)] /\
      match @sparse_jac K ex57_big Column true false t ps (at1 (bneg b1)) 1 1 true g gd gT gA gz st es with
      | Returns c' st' es' => c' = (-1)%Z /\
          undefined (@sparse_jac K ex57_big Column true false t ps (at1 b1) 1 1 false g gd gT gA gz st' es') = true
      | _ => False
      end
  | _ => False
  end.
Proof.
  intros ps g gd gT gA gz.
  apply (@witness1 _ (@run K ps (at1 b1) (branchy K) (@start K (at1 bz) []))).
  vm_compute. split; [discriminate|auto].
Qed.

(* y = min(x0, x1), pattern in tight mode at (1, 2): {x0}.  The repeated call at (2, 1)
   returns a code >= 0 and says that dy/dx0 is 1 and all other derivatives are 0; a new first call
   returns dy/dx1 = 1. *)
Definition min_prog : prog K :=
  Do (CInd K 0) (Do (CInd K 1) (Do (CMin K (Fresh 2) 0 1) (Do (CDep K 2) (Ret K)))).
Theorem C57_tight_at_new_point_refuted : forall (ps : nat -> V K) (g : mem K) (gd : vmem K) gT gA gz,
  exists s, @run K ps (at2 b1 b2) min_prog (@start K (at1 bz) []) = Some s /\
  let t := finish 2 s in
  match @sparse_jac K ex57_big Row true false t ps (at2 b1 b2) 1 2 true g gd gT gA gz (fresh K) [] with
  | Returns c st es => (0 <= c)%Z /\ shown es = [((0, 0)%nat, B2SF b1)] /\
      match @sparse_jac K ex57_big Row true false t ps (at2 b2 b1) 1 2 false g gd gT gA gz st es,
            @sparse_jac K ex57_big Row true false t ps (at2 b2 b1) 1 2 true g gd gT gA gz st es with
      | Returns c' _ es', Returns c2 _ es2 => (0 <= c')%Z /\ (0 <= c2)%Z /\
          map fst es' = [(0, 0)%nat] /\ shown es2 = [((0, 1)%nat, B2SF b1)]
      | _, _ => False
      end
  | _ => False
  end.
Proof.
  intros ps g gd gT gA gz.
  apply (@witness1 _ (@run K ps (at2 b1 b2) min_prog (@start K (at1 bz) []))).
  vm_compute. split; [discriminate|]. split; [reflexivity|]. split; [discriminate|]. split; [discriminate|auto].
Qed.
End Double.
