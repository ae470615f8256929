(** The invariant of the two loops of checkpointing.cpp. *)
From Coq Require Import ZArith Arith List Bool Lia.
From Verif Require Import RevModel RevSpec RevProofs RevInv CpModel CpSpec.
Import ListNotations.
Local Open Scope Z_scope.

Section Proofs.
Context {D G A TP : Type}.
Variable fd : D * G -> D * G.
Variable back : D * G -> A -> A.
Variable trace : D * G -> TP * (D * G).
Variable zos : TP -> D -> option D.
Variable rev : TP -> D -> A -> A.
Variables snaps stps rtp : Z.
Variable hks : bool.
Hypothesis Hsnaps : 1 <= snaps <= ADOLC_CHECKUP.
Hypothesis Hsteps : 1 <= stps.
Hypothesis Hint : stps * (ADOLC_CHECKUP + ADOLC_REPSUP) <= MAXINT.
Hypothesis Hf : faithful fd back trace rev.
Hypothesis Hr : rtp <> 0 \/ reusable back trace zos rev.
Hypothesis Hg : hks = true \/ forall g g' : G, g = g'.
Variable s0 : D * G.
Variable st0 : list (D * option G).

Notation mach := (CpModel.mach D G TP).
Definition X (k : Z) : D * G := Nat.iter (Z.to_nat k) fd s0.
Definition snap (s : D * G) : D * option G := (fst s, if hks then Some (snd s) else None).
Fixpoint shots (n : nat) (c : Z -> Z) : list (D * option G) :=
  match n with O => st0 | S n => snap (X (c (Z.of_nat n))) :: shots n c end.
Lemma shots_ext : forall n c c', (forall i, 0 <= i < Z.of_nat n -> c' i = c i) -> shots n c' = shots n c.
Proof.
  induction n as [|n IH]; intros c c' E; [reflexivity|]. cbn [shots]. rewrite E by lia. rewrite (IH c c'); [reflexivity|]. intros; apply E; lia.
Qed.
Lemma shots_length : forall n c, length (shots n c) = (n + length st0)%nat.
Proof. induction n; intros; cbn; [reflexivity|now rewrite IHn]. Qed.

(** constant fields *)
Definition same (c : mach) : Prop :=
  CpModel.steps (inf c) = stps /\ checkpoints (inf c) = snaps /\ retaping (inf c) = rtp /\ hooks (inf c) = hks.

(** the stack against the bookkeeping of revolve *)
Definition stk (b : bool) (c : mach) : Prop :=
  let s := ctl (inf c) in
  if b then
    (stack (inf c) = shots (Z.to_nat (check s + 1)) (ch (num c)) /\ (0 <= check s -> currentCP (inf c) = ch (num c) (check s)) /\ (0 <= check s \/ fine s = stps \/ stps = 1))
    \/ (exists z, stack (inf c) = z :: shots (Z.to_nat (check s + 1)) (ch (num c)) /\ capo s = fine s /\ currentCP (inf c) = capo s /\ check s + 1 < snaps)
  else stack (inf c) = shots (Z.to_nat (check s + 1)) (ch (num c)) /\ currentCP (inf c) = capo s.
Variable pk0 : nat.
Definition J (b : bool) (v : Z) (c : mach) : Prop :=
  same c /\ Inv snaps stps b (ctl (inf c)) (num c) v /\
  (capo (ctl (inf c)) < fine (ctl (inf c)) -> (buf c, glob c) = X (capo (ctl (inf c)))) /\ stk b c /\
  (peak (inf c) <= Nat.max pk0 (Z.to_nat snaps + length st0))%nat.

Lemma X_step : forall k, 0 <= k -> X (k + 1) = fd (X k).
Proof. intros k K. unfold X. replace (Z.to_nat (k + 1)) with (S (Z.to_nat k)) by lia. reflexivity. Qed.
Lemma X_iter : forall k j, 0 <= k -> k <= j -> iter fd (Z.to_nat (j - k)) (X k) = X j.
Proof.
  intros k j K L. unfold iter, X. replace (Z.to_nat j) with (Z.to_nat (j - k) + Z.to_nat k)%nat by lia.
  induction (Z.to_nat (j - k)) as [|n IH]; [reflexivity|]. cbn [Nat.iter nat_rect Nat.add]. f_equal. exact IH.
Qed.

(** what one round of the loops does, up to the turns *)
Lemma round : forall b v c, J b v c -> 
  let s := ctl (inf c) in
  (check s = -1 /\ capo s = fine s /\ fine s = 0 /\ exists m', call c = Some (terminate, mk_mach (set_ctl (inf c) (mk_args (-2) 0 0 (info s))) m' (buf c) (glob c))) \/
  exists a c1 b' v', call c = Some (a, c1) /\ 0 <= mu b' (ctl (inf c1)) v' < mu b s v /\
    match a with
    | takeshot => b = true /\ capo (ctl (inf c1)) < fine (ctl (inf c1)) /\ J b' v' (on_takeshot c1)
    | advance => b = false /\ capo (ctl (inf c1)) < fine (ctl (inf c1)) /\ J b' v' (on_advance fd c1)
    | restore => b = true /\ capo s = fine s /\ exists c2, on_restore c1 = Some c2 /\ J b' v' c2 /\ ctl (inf c2) = ctl (inf c1) /\ sub (inf c2) = sub (inf c1)
    | firsturn | youturn =>
        (a = if fine s =? stps then firsturn else youturn) /\ (buf c1, glob c1) = X (capo s) /\
        sub (inf c1) = sub (inf c) /\ fine s = capo s + 1 /\ fine (ctl (inf c1)) = capo s /\ capo (ctl (inf c1)) = capo s /\
        (forall c2, (exists t k, inf c2 = set_sub (inf c1) t k) ->
           num c2 = num c1 -> J b' v' c2)
    | _ => False
    end /\ fine (ctl (inf c1)) = (match a with firsturn | youturn => capo s | _ => fine s end) /\ sub (inf c1) = sub (inf c).
Proof.
  intros b v c (Sm & I & St & Sk & Pk) s. unfold stk in Sk; cbv zeta in Sk. fold s in I, St, Sk |- *. destruct Sm as (S1 & S2 & S3 & S4).
  destruct (progress snaps stps Hsnaps Hint b s (num c) v I) as [(E1 & E2 & E3 & E4)|Gd].
  { left. split; [exact E1|]. split; [exact E2|]. split; [exact E3|].
    destruct (call_done snaps s (num c) E1 E2) as [m' E]. exists m'. unfold call. rewrite S2. fold s. rewrite E, E2, E3. reflexivity. }
  right. destruct Gd as (a & s' & m' & b' & v' & E & N1 & N2 & Tr & I' & Mu & Ei & _).
  pose proof (Inv_range snaps stps Hsnaps _ _ _ _ I) as (R1 & R2 & R3 & R4).
  pose proof (Inv_range snaps stps Hsnaps _ _ _ _ I') as (R1' & R2' & R3' & R4').
  exists a, (mk_mach (set_ctl (inf c) s') m' (buf c) (glob c)), b', v'.
  split; [unfold call; rewrite S2; fold s; now rewrite E|]. cbn [inf set_ctl ctl].
  split. { split; [|exact Mu]. unfold mu. destruct b'; lia. }
  destruct Tr as [(T1 & T2 & T3 & T4 & T5 & T6 & T7)|[(T1 & T2 & T3 & T4 & T5 & T6 & T7 & T8 & T9 & T10)|[(T1 & T2 & T3 & T4 & T5 & T6 & T7 & T8 & T9)|(T1 & T2 & T3 & T4 & T5 & T6 & T7 & T8)]]].
  - (* turn *)
    assert (a = firsturn \/ a = youturn) as Q by (destruct (fine s =? stps); auto).
    split; [|split; [destruct Q as [-> | ->]; lia|reflexivity]].
    assert (H : (a = if fine s =? stps then firsturn else youturn) /\ (buf c, glob c) = X (capo s) /\
        sub (inf c) = sub (inf c) /\ fine s = capo s + 1 /\ fine s' = capo s /\ capo s' = capo s /\
        (forall c2, (exists t k, inf c2 = set_sub (set_ctl (inf c) s') t k) ->
           num c2 = m' -> J b' v' c2)).
    2: { destruct Q as [-> | ->]; exact H. }
    split; [exact T2|]. split; [apply St; lia|]. split; [reflexivity|]. split; [exact T1|]. split; [exact T5|]. split; [exact T4|].
    intros c2 (t & k & Ec) En. rewrite T7 in *.
    unfold J. rewrite En. rewrite Ec. cbn [set_sub set_ctl ctl peak stack currentCP].
    split. { unfold same. rewrite Ec. cbn. auto. }
    split; [exact I'|]. split; [lia|]. split; [|exact Pk].
    unfold stk. rewrite Ec, En. cbn [set_sub set_ctl ctl stack currentCP].
    destruct b.
    + destruct Sk as [(Sk1 & Sk2 & Sk4)|(z & Sk1 & Sk2 & _)]; [|lia].  left.
      rewrite T3. split; [|split].
      * rewrite Sk1. symmetry. apply shots_ext. intros i Hi. apply T6. lia.
      * intros P. rewrite Sk2 by assumption. symmetry. apply T6. lia.
      * destruct Sk4 as [Sk4|Sk4]; [now left|]. destruct (Z_lt_dec (check s) 0) as [Q2|]; [|left; lia]. right. right.
        destruct I as [(A1 & A2 & v1 & v2 & A3 & _) _]. replace (Z.to_nat (check s + 1)) with O in A3 by lia. cbn in A3. destruct Sk4; lia.
    + destruct Sk as [Sk1 Sk2].  right. destruct I as [(A1 & A2 & A3 & A4 & _) _].
      exists (snap (X (capo s))). rewrite T3. replace (check s - 1 + 1) with (check s) by lia.
      rewrite Sk1, Sk2, T4, T5. split; [|lia].
      replace (Z.to_nat (check s + 1)) with (S (Z.to_nat (check s))) by lia. cbn [shots]. rewrite Z2Nat.id by lia. rewrite A3.
      f_equal. symmetry. apply shots_ext. intros i Hi. apply T6. lia.
  - (* restore *)
    subst a b b'. split; [|split; [lia|reflexivity]]. split; [reflexivity|]. split; [lia|].
    unfold on_restore. cbn [inf set_ctl ctl currentCP]. rewrite T5.
    assert (Hst : (if negb (ch (num c) (check s) =? currentCP (inf c)) then tl (stack (inf c)) else stack (inf c)) = shots (Z.to_nat (check s + 1)) (ch (num c)) /\
                  (0 < length (shots (Z.to_nat (check s + 1)) (ch (num c))))%nat).
    { split; [|rewrite shots_length; lia].
      destruct Sk as [(Sk1 & Sk2 & Sk4)|(z & Sk1 & Sk2 & Sk3 & _)].
      - rewrite Sk2 by assumption. rewrite Z.eqb_refl. exact Sk1.
      - rewrite Sk3. destruct (Z.eqb_spec (ch (num c) (check s)) (capo s)); [lia|]. cbn [negb]. rewrite Sk1. reflexivity. }
    replace (Z.to_nat (check s + 1)) with (S (Z.to_nat (check s))) in Hst by lia. cbn [shots] in Hst. rewrite Z2Nat.id in Hst by lia.
    destruct Hst as [Hst _].
    set (c0 := mk_mach (set_ctl (inf c) s') m' (buf c) (glob c)).
    assert (exists pk, (pk <= Nat.max pk0 (Z.to_nat snaps + length st0))%nat /\
       mk_mach (set_cp (inf (if negb (ch (num c) (check s) =? currentCP (inf c)) then release c0 else c0)) (capo (ctl (inf (if negb (ch (num c) (check s) =? currentCP (inf c)) then release c0 else c0)))))
         (num (if negb (ch (num c) (check s) =? currentCP (inf c)) then release c0 else c0)) (buf (if negb (ch (num c) (check s) =? currentCP (inf c)) then release c0 else c0)) (glob (if negb (ch (num c) (check s) =? currentCP (inf c)) then release c0 else c0))
       = mk_mach (mk_infos (CpModel.steps (inf c)) (checkpoints (inf c)) (retaping (inf c)) (hooks (inf c)) s' (capo s')
            (snap (X (ch (num c) (check s))) :: shots (Z.to_nat (check s)) (ch (num c))) (sub (inf c)) pk) m' (buf c) (glob c)) as (pk & Hpk & ->).
    { destruct (ch (num c) (check s) =? currentCP (inf c)); cbn [negb] in *.
      - exists (peak (inf c)). split; [exact Pk|]. rewrite <- Hst. reflexivity.
      - exists (Nat.max (peak (inf c)) (length (tl (stack (inf c))))). split; [|rewrite <- Hst; reflexivity].
        rewrite Hst.
        apply Nat.max_lub; [exact Pk|]. cbn [length]. rewrite shots_length. lia. }
    unfold restore_. cbn [inf stack snap]. eexists. split; [reflexivity|]. split; [|cbn; split; reflexivity].
    unfold J. cbn [inf ctl num buf glob peak stack currentCP]. split; [unfold same; cbn; auto|]. split; [exact I'|].
    split.
    { intros _. rewrite T5. rewrite (surjective_pairing (X (ch (num c) (check s)))) at 3. f_equal.
      destruct Hg as [-> | Hg1]; [reflexivity|]. apply Hg1. }
    split; [|exact Hpk].
    unfold stk. cbn [inf ctl stack currentCP num]. split; [|reflexivity]. rewrite T4.
    replace (Z.to_nat (check s + 1)) with (S (Z.to_nat (check s))) by lia. cbn [shots]. rewrite Z2Nat.id by lia.
    rewrite T8 by lia. f_equal. symmetry. apply shots_ext. intros i Hi. apply T8. lia.
  - (* takeshot *)
    subst a b b'. split; [|split; [lia|reflexivity]]. split; [reflexivity|].
    destruct Sk as [(Sk1 & Sk2 & Sk4)|(z & Sk1 & Sk2 & _)]; [|lia].
    assert (snap (X (capo s)) :: stack (inf c) = shots (Z.to_nat (check s' + 1)) (ch m')) as Es.
    { rewrite T3, Sk1. replace (Z.to_nat (check s + 1 + 1)) with (S (Z.to_nat (check s + 1))) by lia. cbn [shots].
      rewrite Z2Nat.id by lia. rewrite <- T3, T6. f_equal. symmetry. apply shots_ext. intros i Hi. apply T7. lia. }
    specialize (St ltac:(lia)).
    assert ((buf c, if hooks (inf c) then Some (glob c) else None) = snap (X (capo s))) as Eb.
    { rewrite <- St. unfold snap. cbn [fst snd]. now rewrite S4. }
    split; [cbn; lia|]. unfold on_takeshot, takeSnapshot, J, same. cbn [inf set_cp set_stack set_ctl ctl num buf glob peak stack currentCP CpModel.steps checkpoints retaping hooks].
    split; [auto|]. split; [exact I'|]. split; [intros _; rewrite T4; exact St|]. split.
    + unfold stk. cbn [inf set_cp set_stack set_ctl ctl num stack currentCP]. split; [|reflexivity]. rewrite Eb. exact Es.
    + rewrite Eb, Es. apply Nat.max_lub; [exact Pk|]. rewrite shots_length. lia.
  - (* advance *)
    subst a b b'. split; [|split; [lia|reflexivity]]. split; [reflexivity|].
    destruct Sk as [Sk1 Sk2].  specialize (St ltac:(lia)).
    pose proof I as [(A1 & A2 & A3 & A4 & _) _].
    split; [cbn; lia|]. unfold on_advance, J, same. cbn [inf set_ctl ctl num buf glob peak stack currentCP CpModel.steps checkpoints retaping hooks].
    split; [auto|]. split; [exact I'|]. split; [|split; [|exact Pk]].
    + intros _. rewrite Sk2, St. rewrite X_iter by lia. now rewrite <- surjective_pairing.
    + unfold stk. cbn [inf set_ctl ctl num stack currentCP]. left. rewrite Sk1, Sk2, T3. split; [|split; [|left; lia]].
      * symmetry. apply shots_ext. intros i Hi. apply T6. lia.
      * intros _. rewrite T6 by lia. now rewrite A3.
Qed.

Lemma adjoint_step : forall k u, 0 <= k < stps -> back (X k) (adjoint fd back (Z.to_nat (stps - (k + 1))) (X (k + 1)) u) = adjoint fd back (Z.to_nat (stps - k)) (X k) u.
Proof.
  intros k u K. replace (Z.to_nat (stps - k)) with (S (Z.to_nat (stps - (k + 1)))) by lia. cbn [adjoint]. now rewrite X_step by lia.
Qed.


Lemma tapeStep_eq : forall keep (c : mach) k, (buf c, glob c) = X k -> 0 <= k ->
  tapeStep trace keep c = mk_mach (set_sub (inf c) (fst (trace (X k))) (if keep then Some (fst (X k)) else None)) (num c) (fst (X (k + 1))) (snd (X (k + 1))).
Proof.
  intros keep c k H K. unfold tapeStep. rewrite H. destruct (Hf (X k)) as [H1 _]. rewrite <- X_step in H1 by assumption.
  replace (buf c) with (fst (X k)) by (rewrite <- H; reflexivity).
  destruct (trace (X k)) as [t s]. cbn [fst snd] in *. now subst s.
Qed.

(** ** The forward loop *)
Lemma forward_ok : forall keep n b v c, J b v c -> capo (ctl (inf c)) < fine (ctl (inf c)) -> fine (ctl (inf c)) = stps -> mu b (ctl (inf c)) v <= Z.of_nat n ->
  exists c', (forall k, forward_loop fd trace (S n + k) keep c = Some c') /\ (buf c', glob c') = X stps /\
    (exists b' v', J b' v' c') /\ fine (ctl (inf c')) = stps - 1 /\ capo (ctl (inf c')) = stps - 1 /\
    sub (inf c') = Some (fst (trace (X (stps - 1))), if keep then Some (fst (X (stps - 1))) else None).
Proof.
  intros keep. induction n as [|n IH]; intros b v c Hj L F M.
  all: destruct (round b v c Hj) as [(E1 & E2 & E3 & _)|(a & c1 & b' & v' & E & Mu & Ac & Ef & Es)]; [lia|].
  1: lia.
  assert (a <> firsturn -> a <> youturn -> forall c2, ctl (inf c2) = ctl (inf c1) -> J b' v' c2 -> capo (ctl (inf c1)) < fine (ctl (inf c1)) ->
    (forall k, forward_loop fd trace (S (S n) + k) keep c = forward_loop fd trace (S n + k) keep c2) ->
    exists c', (forall k, forward_loop fd trace (S (S n) + k) keep c = Some c') /\ (buf c', glob c') = X stps /\
    (exists b' v', J b' v' c') /\ fine (ctl (inf c')) = stps - 1 /\ capo (ctl (inf c')) = stps - 1 /\
    sub (inf c') = Some (fst (trace (X (stps - 1))), if keep then Some (fst (X (stps - 1))) else None)) as Next.
  { intros N1 N2 c2 Ec J2 Lc El. destruct (IH b' v' c2 J2) as (c' & Hc & Hr').
    - now rewrite Ec.
    - rewrite Ec, Ef. destruct a; try contradiction; exact F.
    - rewrite Ec. lia.
    - exists c'. split; [|exact Hr']. intros k. rewrite El. apply Hc. }
  destruct a; try contradiction.
  - destruct Ac as (_ & Lc & Ac). apply (Next ltac:(discriminate) ltac:(discriminate) _ (eq_refl : ctl (inf (on_advance fd c1)) = _) Ac Lc).
    intros k. replace (S (S n) + k)%nat with (S (S n + k)) by lia. cbn [forward_loop]. now rewrite E.
  - destruct Ac as (_ & Lc & Ac). apply (Next ltac:(discriminate) ltac:(discriminate) _ (eq_refl : ctl (inf (on_takeshot c1)) = _) Ac Lc).
    intros k. replace (S (S n) + k)%nat with (S (S n + k)) by lia. cbn [forward_loop]. now rewrite E.
  - destruct Ac as (_ & Lc & Ac). lia.
  - exists (tapeStep trace keep c1). destruct Ac as (A1 & A2 & A3 & A4 & A5 & A7 & A6).
    assert (capo (ctl (inf c)) = stps - 1) as Ek by lia. rewrite Ek in *.
    split; [intros k; replace (S (S n) + k)%nat with (S (S n + k)) by lia; cbn [forward_loop]; now rewrite E|].
    rewrite (tapeStep_eq keep c1 _ A2) by lia. cbn [inf set_sub ctl num buf glob sub].
    split; [rewrite <- surjective_pairing; f_equal; lia|]. split; [|split; [exact Ef|split; [exact A7|reflexivity]]].
    exists b', v'. apply A6; [|reflexivity]. eexists. eexists. reflexivity.
  - destruct Ac as (A1 & _). rewrite F, Z.eqb_refl in A1. discriminate.
Qed.

(** ** The reverse loop *)
Lemma reverse_ok : forall u n b v c p kd, J b v c -> fine (ctl (inf c)) < stps -> mu b (ctl (inf c)) v <= Z.of_nat n ->
  sub (inf c) = Some (fst (trace p), kd) ->
  exists c', (forall k, reverse_loop fd trace zos rev (S n + k) (adjoint fd back (Z.to_nat (stps - fine (ctl (inf c)))) (X (fine (ctl (inf c)))) u) c
                       = Some (c', adjoint fd back (Z.to_nat stps) s0 u)) /\
    same c' /\ (if stps =? 1 then stack (inf c') = st0 \/ (exists z, stack (inf c') = z :: st0) else exists z, stack (inf c') = z :: st0) /\
    (peak (inf c') <= Nat.max pk0 (Z.to_nat snaps + length st0))%nat /\ check (ctl (inf c')) = -2.
Proof.
  intros u. induction n as [|n IH]; intros b v c p kd Hj F M Sb.
  all: destruct (round b v c Hj) as [(E1 & E2 & E3 & m' & E)|(a & c1 & b' & v' & E & Mu & Ac & Ef & Es)].
  2: lia.
  1, 2: (eexists; split; [intros k; cbn [reverse_loop Nat.add]; rewrite E, E3, Z.sub_0_r; reflexivity|];
    destruct Hj as ((S1 & S2 & S3 & S4) & I & _ & Sk & Pk); cbn [inf set_ctl stack peak ctl check];
    split; [unfold same; cbn; auto|]; split; [|split; [exact Pk|reflexivity]];
    assert (b = true) as -> by (destruct b; [reflexivity|]; destruct I as [(_ & I & _) _]; lia);
    unfold stk in Sk; cbv zeta in Sk; rewrite E1 in Sk; cbn [Z.to_nat Z.add Z.opp shots] in Sk; change (Z.to_nat (-1 + 1)) with O in Sk; cbn [shots] in Sk;
    destruct Sk as [(Sk1 & _ & Sk2)|(z & Sk1 & _)]; [|destruct (stps =? 1); eauto];
    destruct (Z.eqb_spec stps 1); [now left|exfalso; lia]).
  assert (a <> firsturn -> a <> youturn -> forall c2, ctl (inf c2) = ctl (inf c1) -> sub (inf c2) = sub (inf c1) -> J b' v' c2 ->
    (forall k x, reverse_loop fd trace zos rev (S (S n) + k) x c = reverse_loop fd trace zos rev (S n + k) x c2) ->
    exists c', (forall k, reverse_loop fd trace zos rev (S (S n) + k) (adjoint fd back (Z.to_nat (stps - fine (ctl (inf c)))) (X (fine (ctl (inf c)))) u) c
                       = Some (c', adjoint fd back (Z.to_nat stps) s0 u)) /\
    same c' /\ (if stps =? 1 then stack (inf c') = st0 \/ (exists z, stack (inf c') = z :: st0) else exists z, stack (inf c') = z :: st0) /\
    (peak (inf c') <= Nat.max pk0 (Z.to_nat snaps + length st0))%nat /\ check (ctl (inf c')) = -2) as Next.
  { intros N1 N2 c2 Ec Eb J2 El.
    assert (fine (ctl (inf c2)) = fine (ctl (inf c))) as Ef' by (rewrite Ec, Ef; destruct a; try contradiction; reflexivity).
    destruct (IH b' v' c2 p kd J2) as (c' & Hc & Hr').
    - rewrite Ef'. exact F.
    - rewrite Ec. lia.
    - rewrite Eb, Es. exact Sb.
    - exists c'. split; [|exact Hr']. intros k. rewrite El. rewrite <- Ef'. apply Hc. }
  destruct a; try contradiction.
  - destruct Ac as (_ & Lc & Ac). apply (Next ltac:(discriminate) ltac:(discriminate) _ (eq_refl : ctl (inf (on_advance fd c1)) = _) (eq_refl : sub (inf (on_advance fd c1)) = _) Ac).
    intros k x. replace (S (S n) + k)%nat with (S (S n + k)) by lia. cbn [reverse_loop]. now rewrite E.
  - destruct Ac as (_ & Lc & Ac). apply (Next ltac:(discriminate) ltac:(discriminate) _ (eq_refl : ctl (inf (on_takeshot c1)) = _) (eq_refl : sub (inf (on_takeshot c1)) = _) Ac).
    intros k x. replace (S (S n) + k)%nat with (S (S n + k)) by lia. cbn [reverse_loop]. now rewrite E.
  - destruct Ac as (_ & _ & c2 & R1 & R2 & R3 & R4). apply (Next ltac:(discriminate) ltac:(discriminate) _ R3 R4 R2).
    intros k x. replace (S (S n) + k)%nat with (S (S n + k)) by lia. cbn [reverse_loop]. now rewrite E, R1.
  - destruct Ac as (A1 & _). destruct (Z.eqb_spec (fine (ctl (inf c))) stps); [lia|discriminate].
  - destruct Ac as (A1 & A2 & A3 & A4 & A5 & A7 & A6).
    pose proof Hj as ((S1 & S2 & S3 & S4) & I & _). pose proof (Inv_range snaps stps Hsnaps _ _ _ _ I) as (R1 & R2 & _).
    set (k0 := capo (ctl (inf c))) in *.
    assert (exists c2 p' y, on_youturn trace zos c1 = Some c2 /\ inf c2 = set_sub (inf c1) (fst (trace p')) (Some y) /\ num c2 = num c1 /\
       forall w, rev (fst (trace p')) y w = back (X k0) w) as (c2 & p' & y & Y1 & Y2 & Y3 & Y4).
    { unfold on_youturn.
      assert (exists c2 p' y, Some (tapeStep trace true c1) = Some c2 /\ inf c2 = set_sub (inf c1) (fst (trace p')) (Some y) /\ num c2 = num c1 /\
         forall w, rev (fst (trace p')) y w = back (X k0) w) as Tape.
      { exists (tapeStep trace true c1), (X k0), (fst (X k0)). split; [reflexivity|]. rewrite (tapeStep_eq true c1 k0 A2) by lia. cbn [inf num].
        split; [reflexivity|]. split; [reflexivity|]. apply Hf. }
      assert (retaping (inf c1) = rtp) as Er.
      { unfold call in E. destruct (revolve (checkpoints (inf c)) (ctl (inf c)) (num c)) as [[[? ?] ?]|]; [|discriminate]. injection E as _ <-. cbn. exact S3. }
      rewrite Er, A3, Sb. destruct (Z.eqb_spec rtp 0) as [Z0|Z0]; cbn [negb]; [|exact Tape].
      destruct (zos (fst (trace p)) (buf c1)) as [d'|] eqn:Ez; [|exact Tape].
      eexists. exists p, (buf c1). split; [reflexivity|]. cbn [inf num]. split; [reflexivity|]. split; [reflexivity|].
      destruct Hr as [H|H]; [contradiction|]. intros w. rewrite (H p (buf c1) (glob c1) d' Ez). now rewrite A2. }
    assert (J b' v' c2) as J2 by (apply A6; [eauto|exact Y3]).
    assert (ctl (inf c2) = ctl (inf c1)) as Ec by (rewrite Y2; reflexivity).
    destruct (IH b' v' c2 p' (Some y) J2) as (c' & Hc & Hr').
    + rewrite Ec. lia.
    + rewrite Ec. lia.
    + rewrite Y2. reflexivity.
    + exists c'. split; [|exact Hr']. intros k. replace (S (S n) + k)%nat with (S (S n + k)) by lia. cbn [reverse_loop]. rewrite E, Y1.
      unfold sub_reverse. rewrite Y2. cbn [set_sub sub]. rewrite Y4. rewrite A4, adjoint_step by lia.
      specialize (Hc k). rewrite Ec, A5 in Hc. exact Hc.
Qed.
End Proofs.
