(* C54: a program that meets the hypotheses, and the self-assignment that loses the pattern. *)
From Coq Require Import List Arith Bool Lia Sorted Reals ZArith.
From Coquelicot Require Import Coquelicot.
Require Import Verif.IndoModel Verif.IndoProps.
Import ListNotations.
Local Open Scope nat_scope.

(* integers for doubles; every function but the sign is the identity *)
Definition ints : dnum := mkNum Z (fun f => match f with Neg => Z.opp | _ => fun x => x end)
  (fun f => match f with Add => Z.add | Sub => Z.sub | Mul => Z.mul | Div => Z.div | _ => Z.pow end)
  (fun r => match r with Ne => fun a b => negb (Z.eqb a b) | Eq => Z.eqb | Le => Z.leb | Ge => Z.geb | Gt => Z.gtb | Lt => Z.ltb end)
  0%Z 1%Z 2%Z.
(* x0, x1, x2: t = sin(x1 * x0); m = fmax(t, x2); if (m > 5) m += x0; condassign(r, x2, t, m) *)
Definition ex_prog {N : dnum} (five : D N) : prog N :=
  Do (Bin Mul 3 (Ob 1) (Ob 0)) (Do (Un Sin 4 3) (Do (Fmax 5 (Ob 4) (Ob 2))
    (If Gt (Ob 5) (Const five) (fun b =>
       (if b then Do (OpAsg Add 5 (Ob 0)) else fun p => p)
       (Do (Ctor 6) (Do (Condassign 6 2 4 5) Ret)))))).
Definition ex_mem (x2 : Z) : mem ints :=
  fun o => @mkObj ints (match o with 0 => 3%Z | 1 => 4%Z | 2 => x2 | _ => 0%Z end) [].
(* both runs decide alike, x2 differs, and objects 5 and 6 have the pattern {0, 1} *)
Theorem C54_met : legal (@ex_prog ints 5%Z) /\
  (forall o', ~ (0 <= o' < 0 + 3) -> ex_mem 1%Z o' = ex_mem 2%Z o') /\
  snd (run (@ex_prog ints 5%Z) (init_pattern (ex_mem 1%Z) 0 3 0)) = snd (run (@ex_prog ints 5%Z) (init_pattern (ex_mem 2%Z) 0 3 0)) /\
  ex_mem 1%Z 2 <> ex_mem 2%Z 2 /\
  fst (run (@ex_prog ints 5%Z) (init_pattern (ex_mem 1%Z) 0 3 0)) 5 = @mkObj ints 15%Z [0; 1] /\
  fst (run (@ex_prog ints 5%Z) (init_pattern (ex_mem 1%Z) 0 3 0)) 6 = @mkObj ints 12%Z [0; 1].
Proof.
  split; [|split; [|split; [|split; [|split]]]]; try (vm_compute; reflexivity).
  - cbn. intuition (try lia). destruct b; cbn; intuition lia.
  - intros o' H. unfold ex_mem. do 3 (destruct o' as [|o']; [lia|]). reflexivity.
  - intros H. discriminate.
Qed.
(* x0 * x1 at (2, 3) has the partial derivatives 3 and 2, both are in the pattern *)
Theorem C54_jacobian_met (g1 : unary -> R -> R) (g2 : binary -> R -> R -> R) (gt : rel -> R -> R -> bool) (c0 c1 c2 : R) :
  (forall x y, g2 Mul x y = x * y)%R ->
  let N := mkNum R g1 g2 gt c0 c1 c2 in
  let M : mem N := fun o => @mkObj N (match o with 0%nat => 2 | _ => 3 end)%R [] in
  let p : prog N := Do (Bin Mul 2 (Ob 0) (Ob 1)) Ret in
  legal p /\ locally (val (M 0%nat) : R) (fun s => snd (run p (init_pattern (moved g1 g2 gt c0 c1 c2 M (0 + 0) s) 0 2 0)) = []) /\
  is_derive (fun s => val (fst (run p (init_pattern (moved g1 g2 gt c0 c1 c2 M (0 + 0) s) 0 2 0)) 2%nat) : R) (val (M 0%nat) : R) 3%R.
Proof.
  intros Hm N M p. split; [cbn; auto|]. split; [now apply filter_forall|].
  apply is_derive_ext with (f := fun s : R => (s * 3)%R); [intros s; cbn; now rewrite Hm|]. auto_derive; [exact Logic.I|]. ring.
Qed.

(* x = x and condassign(x, c, x, y) empty the pattern of x, whatever the arithmetic *)
Theorem C54_self_assignment_refuted (N : dnum) (u v c w : D N) : u <> v -> test N Gt c (nil_ N) = true ->
  let M x : mem N := fun o => mkObj (match o with 0 => x | 1 => c | _ => w end) [] in
  forall p, p = Do (Asg 0 0) Ret \/ p = Do (Condassign 0 1 0 2) Ret ->
  snd (run p (init_pattern (M u) 0 1 0)) = snd (run p (init_pattern (M v) 0 1 0)) /\
  fst (run p (init_pattern (M u) 0 1 0)) 0 = mkObj u [] /\ fst (run p (init_pattern (M v) 0 1 0)) 0 = mkObj v [].
Proof.
  intros Hn Hc M p [->| ->]; cbn; [auto|]. unfold pos. cbn. rewrite Hc. cbn. auto.
Qed.
