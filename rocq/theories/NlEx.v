(* C19: a case that meets the hypotheses, and the operations the property fails for. *)
From Coq Require Import List ZArith Bool Arith Lia Reals Lra.
From Coquelicot Require Import Coquelicot.
Require Import Verif.AdModel Verif.AdSpec Verif.AdRecord Verif.AdReal Verif.SpModel
  Verif.SpSpec Verif.NlModel Verif.NlSpec Verif.NlProps.
Import ListNotations.
Set Implicit Arguments.
Unset Asymmetric Patterns.
Local Open Scope nat_scope.

Ltac sweep := match goal with |- exists e, ?l = Done e /\ _ =>
  let v := eval vm_compute in l in
  match v with Done ?s => exists s; split; [vm_cast_no_check (eq_refl (Done s))|] end end.
Ltac tape := match goal with |- exists t, ?r = Some t /\ _ =>
  let v := eval vm_compute in r in
  match v with Some ?s => exists s; split; [vm_cast_no_check (eq_refl (Some s))|] end end.
Definition at3 (a b c : R) : nat -> R := fun i => match i with 0 => a | 1 => b | 2 => c | _ => 0%R end.

(* y = sin(x0*x1) + x2 *)
Definition ex_ops (K : Arith) : list (bop K) :=
  [AssignInd K 0; AssignInd K 1; AssignInd K 2; MultAA K 0 1 3; SinOp K 3 4 5;
   PlusAA K 5 2 6; AssignDep K 6; DeathNot K 0 6].
Definition ex_trace (K : Arith) : list (op K) := map (@Plain K) (ex_ops K).
Lemma ex_safe K : hess_pat_safe (recorded_stats 2 (ex_trace K)) 3 (ex_trace K) = HRows [[0; 1]; [0; 1]; []].
Proof. reflexivity. Qed.
Lemma ex_tight (K : Arith) ps x g :
  @hess_pat_tight K (recorded_stats 2 (ex_trace K)) 3 ps x g (ex_trace K) = HRows [[0; 1]; [0; 1]; []].
Proof. reflexivity. Qed.
Lemma ex_assigned K m : assigned m (ex_ops K) [] = true.
Proof. destruct m; reflexivity. Qed.
Lemma ex_patternable (K : Arith) ps x g : hpatternable (@operations K ps x g (ex_trace K)) [] = true.
Proof. reflexivity. Qed.
Lemma ex_piece (K : Arith) ps x g : @piece K ps x g (ex_trace K) = [].
Proof. reflexivity. Qed.
Lemma ex_value (K : Arith) ps x g : exists e, @zos_forward K ps x g (ex_trace K) = Done e /\
  frc e = 3%Z /\ fy e = [add K (fn K Fsin (mul K (x 0) (x 1))) (x 2)].
Proof. sweep. split; reflexivity. Qed.
Lemma ex_value_at ps x g : value_at ps g (ex_trace reals) 0 x
  (add reals (fn reals Fsin (mul reals (x 0) (x 1))) (x 2)).
Proof.
  destruct (@ex_value reals ps x g) as (e & Z & F & Y). exists e. rewrite Y. split; [exact Z|]. split; [lia|reflexivity].
Qed.
(* all the hypotheses of the mixed derivative theorems, for i = 0 and j = 2 *)
Lemma ex_one_piece ps x g : one_piece ps g (ex_trace reals) 0 x 0 2 1
  (fun s u => add reals (fn reals Fsin (mul reals (x 0%nat + s)%R (x 1))) (x 2%nat + u)%R).
Proof.
  intros s u _ _. split; [|rewrite !(@ex_piece reals); reflexivity].
  exact (ex_value_at ps (move (move x 0 s) 2 u) g).
Qed.
Theorem C19_example (ps x : nat -> R) (g : mem reals) : is_derive (fun s => Derive (fun u =>
  add reals (fn reals Fsin (mul reals (x 0%nat + s)%R (x 1))) (x 2%nat + u)%R) 0%R) 0%R 0%R.
Proof.
  eapply (@C19_safe_mixed_derivative _ 3 ps x g (ex_trace reals) _ 0 2);
    [apply ex_safe|apply ex_patternable|reflexivity| | |apply ex_one_piece].
  - intros [H|[H|[]]]; discriminate.
  - lra.
Qed.

(* ------------------------------------------------------------------ *)
(* Patterns that are too small.  misses: the points are on one piece, the second
   difference does not vanish, yet j is not in row i. *)
Definition misses (ps : nat -> R) (g : mem reals) (t : list (op reals)) (rows : list (list nat))
  (i j : nat) (x : nat -> R) : Prop :=
  (exists r, nth_error rows i = Some r /\ ~ In j r) /\ ~ separable_at ps g t x i j.

(* v = x0; condassign(v, x1, x2); y = v * x0 *)
Definition short_prog (K : Arith) : prog K :=
  Do (CInd K 0) (Do (CInd K 1) (Do (CInd K 2) (Do (CCopy K 0 3) (Do (CCondS K 3 1 2)
  (Do (CBin K BMul (Fresh 4) 3 0) (Do (CDep K 4) (Ret K))))))).
Definition short_tape (K : Arith) (c : V K) : list (op K) :=
  [Plain (AssignInd K 0); Plain (AssignInd K 1); Plain (AssignInd K 2); Plain (AssignA K 0 3);
   Plain (CondAssignS K 1 2 3 c); Plain (AssignD0 K 4); Plain (MultAA K 3 0 4); Plain (AssignDep K 4);
   Plain (DeathNot K 0 4)].
Lemma short_recorded (K : Arith) g ps x : @record K g [] 4 ps x (short_prog K) = Some (short_tape K (x 1)).
Proof. reflexivity. Qed.
Lemma short_safe (K : Arith) c : hess_pat_safe (recorded_stats 2 (short_tape K c)) 3 (short_tape K c)
  = HRows [[2]; []; [0]].
Proof. reflexivity. Qed.
Lemma short_tight (K : Arith) ps x g c : @hess_pat_tight K (recorded_stats 2 (short_tape K c)) 3 ps x g (short_tape K c)
  = HRows [[2]; []; [0]].
Proof. reflexivity. Qed.
Lemma short_piece (K : Arith) ps x g c : @piece K ps x g (short_tape K c) = [Branch K (ltb K (zero K) (x 1))].
Proof. reflexivity. Qed.
Lemma short_value (K : Arith) ps x g c : exists e, @zos_forward K ps x g (short_tape K c) = Done e /\
  (0 <= frc e)%Z /\ fy e = [mul K (if ltb K (zero K) (x 1) then x 2 else x 0) (x 0)].
Proof.
  sweep. split.
  - cbn. repeat match goal with |- context [if ?c then _ else _] => destruct c end; cbn; lia.
  - destruct (ltb K (zero K) (x 1)) eqn:E; vm_compute in E; cbn [fy]; rewrite E; reflexivity.
Qed.
Lemma short_value_at ps x g c : (x 1%nat < 0)%R -> value_at ps g (short_tape reals c) 0 x (mul reals (x 0) (x 0)).
Proof.
  intros N. destruct (@short_value reals ps x g c) as (e & Z & F & Y). exists e. split; [exact Z|]. split; [exact F|].
  assert (ltb reals (zero reals) (x 1) = false) as B. { cbn. unfold Rltb. destruct (Rlt_dec 0 (x 1)); auto. lra. }
  rewrite B in Y. now rewrite Y.
Qed.
Theorem C19_short_condassign_refuted (ps : nat -> R) (g : mem reals) :
  exists p t rows, @record reals g [] 4 ps (at3 0 (-1) 0) p = Some t /\
    @hess_pat_safe reals (recorded_stats 2 t) 3 t = HRows rows /\
    @hess_pat_tight reals (recorded_stats 2 t) 3 ps (at3 0 (-1) 0) g t = HRows rows /\
    misses ps g t rows 0 0 (at3 0 (-1) 0).
Proof.
  exists (short_prog reals), (short_tape reals (-1)%R), [[2]; []; [0]].
  split; [apply (@short_recorded reals)|]. split; [apply short_safe|]. split; [apply short_tight|].
  split. { exists [2]. split; [reflexivity|]. intros [H|[]]; discriminate. }
  intros S. specialize (S 1%R 1%R 0).
  assert (B : forall y : nat -> R, y 1 = (-1)%R -> @piece reals ps y g (short_tape reals (-1)%R) = [Branch reals false]).
  { intros y H. rewrite short_piece, H. cbn. unfold Rltb. destruct (Rlt_dec 0 (-1)); auto. lra. }
  assert (V : forall y : nat -> R, y 1 = (-1)%R -> value_at ps g (short_tape reals (-1)%R) 0 y (mul reals (y 0) (y 0))).
  { intros y H. apply short_value_at. rewrite H. lra. }
  set (y0 := at3 0 (-1) 0) in *. set (y1 := move y0 0 1) in *. set (y2 := move y1 0 1) in *.
  assert (A0 : y0 1 = (-1)%R) by reflexivity.
  assert (A1 : y1 1 = (-1)%R) by reflexivity.
  assert (A2 : y2 1 = (-1)%R) by reflexivity.
  specialize (S _ _ _ _ (eq_trans (B y1 A1) (eq_sym (B y0 A0))) (eq_trans (B y1 A1) (eq_sym (B y0 A0)))
    (eq_trans (B y2 A2) (eq_sym (B y0 A0))) (V y0 A0) (V y1 A1) (V y1 A1) (V y2 A2)).
  assert (E0 : y0 0 = 0%R) by reflexivity.
  assert (E1 : y1 0 = (0 + 1)%R) by reflexivity.
  assert (E2 : y2 0 = (0 + 1 + 1)%R) by reflexivity.
  rewrite E0, E1, E2 in S. change (mul reals) with Rmult in S. lra.
Qed.

(* ------------------------------------------------------------------ *)
(* Undefined behaviour: the pattern cannot be computed. *)

(* y = fmin(x0, x1) * x0, safe mode: the cell of the result is not initialised *)
Definition min_prog (K : Arith) : prog K :=
  Do (CInd K 0) (Do (CInd K 1) (Do (CMin K (Fresh 2) 0 1)
  (Do (CBin K BMul (Fresh 3) 2 0) (Do (CDep K 3) (Ret K))))).
Theorem C19_safe_fmin_refuted (K : Arith) ps x g : exists t,
  @record K g [] 3 ps x (min_prog K) = Some t /\
  hess_pat_safe (recorded_stats 2 t) 2 t = HUndef.
Proof. tape. reflexivity. Qed.

(* condassign(v, x0, x1, x2); y = v * x0, safe mode *)
Definition cond_prog (K : Arith) : prog K :=
  Do (CInd K 0) (Do (CInd K 1) (Do (CInd K 2) (Do (CCopy K 1 3) (Do (CCond K 3 0 1 2)
  (Do (CBin K BMul (Fresh 4) 3 0) (Do (CDep K 4) (Ret K))))))).
Theorem C19_safe_condassign_refuted (K : Arith) ps x g : exists t,
  @record K g [] 4 ps x (cond_prog K) = Some t /\
  hess_pat_safe (recorded_stats 2 t) 3 t = HUndef.
Proof. tape. reflexivity. Qed.

(* c an active variable that was alive before trace_on; y = c * x0 *)
Definition stock_prog (K : Arith) : prog K :=
  Do (CInd K 1) (Do (CBin K BMul (Fresh 2) 0 1) (Do (CDep K 2) (Ret K))).
Theorem C19_stock_refuted (K : Arith) ps x g : exists t,
  @record K g [1] 2 ps x (stock_prog K) = Some t /\
  hess_pat_safe (recorded_stats 2 t) 1 t = HUndef /\
  @hess_pat_tight K (recorded_stats 2 t) 1 ps x g t = HUndef.
Proof. tape. split; reflexivity. Qed.

(* y = vec_dot of two vectors of length 1: NUM_DEPENDENTS becomes 3 *)
Definition dot_prog (K : Arith) : prog K :=
  Do (CInd K 0) (Do (CInd K 1) (Do (CVecDot K 2 0 1 1) (Do (CDep K 2) (Ret K)))).
Theorem C19_vec_dot_refuted (K : Arith) ps x g : exists t,
  @record K g [] 2 ps x (dot_prog K) = Some t /\
  length (filter (fun o => match o with Plain (AssignDep _ _) => true | _ => false end) t) = 1 /\
  hess_pat_safe (recorded_stats 2 t) 2 t = HFail /\
  @hess_pat_tight K (recorded_stats 2 t) 2 ps x g t = HFail.
Proof. tape. split; [|split]; reflexivity. Qed.

Print Assumptions C19_safe_pattern_covers.
Print Assumptions C19_tight_pattern_covers.
Print Assumptions C19_safe_mixed_derivative.
Print Assumptions C19_safe_pattern_shape.
Print Assumptions C19_safe_pattern_defined.
Print Assumptions C19_tight_pattern_defined.
Print Assumptions C19_short_condassign_refuted.
