(** * Property theorems: trace_on / trace_off (C09, C10). *)
From Coq Require Import List ZArith Bool Lia Arith.
From Verif Require Import MgrModel MgrSpec MgrProofs.
Import ListNotations.
Set Implicit Arguments.

Section Props.
Variable E : Type.
Variable dflt : sizes.

(** Sections nested to any depth: every operation is recorded on exactly the tape of
    the innermost open section, every sweep reads the last finished trace of its tape,
    and after the last trace_off the current tape and the stack are as before. *)
Theorem C09_sections (s : mgr E) (p : prog E) (c : nat) :
  NoDup (ids s) -> idle s -> cur s = Some c -> c < length (tapes s) ->
  legal (ids s) [] p ->
  exists s' env d o,
    meaning p (finished s) [] [] = (env, d, o) /\
    run dflt s (calls p) [] = Some (s', o) /\
    cur s' = cur s /\ stack s' = stack s /\ ids s' = ids s /\ idle s' /\
    forall id, In id (ids s) -> finished s' id = env id.
Proof.
  intros N I C Cl L.
  assert (Inv0 : Inv s (finished s) [] []).
  { constructor; auto.
    - intros k t Hk. split; [symmetry; eapply find_nth; eauto|]. split; [intros []|].
      intros _. apply I. eapply nth_error_In; eauto.
    - apply nth_error_Some in Cl. destruct (nth_error (tapes s) c) as [t|] eqn:T; [|congruence].
      exists c, t. repeat split; auto. intros []. }
  destruct (run_prog dflt p [] Inv0 L) as (s' & H).
  destruct (meaning p (finished s) [] []) as [[env d] o].
  destruct H as (H1 & H2 & H3 & H4 & H5 & _).
  exists s', env, d, o. do 5 (split; [auto|]). split.
  - intros t Ht. apply In_nth_error in Ht. destruct Ht as (k & Hk).
    apply (i_tape H2 k Hk). intros [].
  - intros id Hid. rewrite <- H5 in Hid.
    destruct (find_in s' id Hid) as (k & t & _ & T1 & T2).
    rewrite (find_nth s' (i_nd H2) k T1 T2).
    rewrite <- T2. apply (i_tape H2 k T1).
Qed.

(** The statement of C09 for one section: the tape that was current before trace_on is
    current again after trace_off, and the section's tape holds the section's own
    operations, whatever nested sections there are. *)
Theorem C09_one_section (s : mgr E) (id flag : Z) (body : prog E) (c : nat) :
  NoDup (ids s) -> idle s -> cur s = Some c -> c < length (tapes s) ->
  legal (ids s) [] (Block id flag body (Done E)) ->
  exists s' o env d,
    run dflt s (calls (Block id flag body (Done E))) [] = Some (s', o) /\
    meaning body (finished s) [] [] = (env, d, o) /\
    cur s' = cur s /\ stack s' = stack s /\ finished s' id = Some d.
Proof.
  intros N I C Cl L. destruct (C09_sections _ N I C Cl L) as (s' & env & d & o & M & R & A & B & D & F & G).
  cbn [meaning] in M. destruct (meaning body (finished s) [] []) as [[env1 d1] o1] eqn:Q.
  inversion M; subst. exists s', o, env1, d1.
  do 4 (split; [auto|]). rewrite G by apply L. now rewrite Z.eqb_refl.
Qed.

(** Creating tapes: up to 65536 of them get distinct ids. *)
Fixpoint new_tapes (n : nat) (s : mgr E) : mgr E :=
  match n with
  | O => s
  | S n => match create_new_tape dflt (new_tapes n s) with Ret _ s' => s' | _ => s end
  end.
Lemma new_tapes_spec n : let s := new_tapes n (init E) in
  ids s = map (fun i => to_short (Z.of_nat i)) (seq 0 n) /\ idle s /\ counter s = to_short (Z.of_nat n) /\
  length (tapes s) = n /\ stack s = [] /\ (0 < n -> exists c, cur s = Some c /\ c < n).
Proof.
  induction n as [|n IH]; cbn zeta in *; cbn [new_tapes].
  - repeat split; auto; try (intros ? []). lia.
  - destruct IH as (A & B & C & D & F & G).
    set (s := new_tapes n (init E)) in *. unfold create_new_tape.
    set (s1 := mkMgr (tapes s ++ [mkTape (counter s) NoMode [] None false dflt]) (cur s) (stack s) (counter s)).
    set (s2 := match cur s1 with None => set_cur s1 (find_tape s1 (counter s)) | Some _ => s1 end).
    assert (T2 : tapes s2 = tapes s1) by (unfold s2; destruct (cur s1); reflexivity).
    assert (K2 : stack s2 = stack s) by (unfold s2; destruct (cur s1); reflexivity).
    unfold ids, idle. cbn [tapes cur stack counter]. rewrite T2, K2. cbn [s1 tapes].
    split; [|split; [|split; [|split; [|split]]]]; auto.
    + rewrite map_app. cbn [map]. unfold ids in A. rewrite A, C. now rewrite seq_S, map_app.
    + intros t Ht. apply in_app_iff in Ht. destruct Ht as [Ht|[<-|[]]]; auto.
    + rewrite C. unfold to_short. rewrite Nat2Z.inj_succ.
      replace ((Z.of_nat n + 32768) mod 65536 - 32768 + 1 + 32768)%Z with ((Z.of_nat n + 32768) mod 65536 + 1)%Z by lia.
      rewrite Z.add_mod_idemp_l by lia. f_equal. f_equal. lia.
    + rewrite app_length. cbn. lia.
    + intros _. unfold s2. cbn [s1 cur]. destruct (cur s) as [c|] eqn:Cu; cbn [s1 cur].
      * exists c. split; [reflexivity || exact Cu|].
        destruct n; [unfold s in Cu; cbn in Cu; discriminate|]. destruct (G ltac:(lia)) as (c' & G1 & G2).
        assert (c = c') by congruence. lia.
      * destruct (find_in s1 (counter s)) as (k & t & X & Y & Z).
        { unfold ids. cbn [s1 tapes]. rewrite map_app, in_app_iff. right. now left. }
        exists k. cbn [set_cur cur]. split; [exact X|].
        assert (k < length (tapes s1)) by (apply nth_error_Some; congruence).
        cbn [s1 tapes] in H. rewrite app_length in H. cbn in H. lia.
Qed.
Lemma to_short_inj i j : (Z.of_nat i < 65536)%Z -> (Z.of_nat j < 65536)%Z -> to_short (Z.of_nat i) = to_short (Z.of_nat j) -> i = j.
Proof.
  intros Hi Hj H. unfold to_short in H.
  assert (A : ((Z.of_nat i + 32768) mod 65536 = (Z.of_nat j + 32768) mod 65536)%Z) by lia.
  pose proof (Z.div_mod (Z.of_nat i + 32768) 65536). pose proof (Z.div_mod (Z.of_nat j + 32768) 65536).
  pose proof (Z.mod_pos_bound (Z.of_nat i + 32768) 65536). pose proof (Z.mod_pos_bound (Z.of_nat j + 32768) 65536).
  lia.
Qed.
Theorem C09_fresh_tapes (n : nat) : (Z.of_nat n <= 65536)%Z ->
  let s := new_tapes n (init E) in
  NoDup (ids s) /\ idle s /\ length (tapes s) = n /\ (0 < n -> exists c, cur s = Some c /\ c < length (tapes s)).
Proof.
  intros L. destruct (new_tapes_spec n) as (A & B & C & D & F & G). cbn zeta.
  split; [|split; [auto|]].
  - rewrite A. assert (Q : forall l, NoDup l -> (forall i, In i l -> (Z.of_nat i < 65536)%Z) -> NoDup (map (fun i => to_short (Z.of_nat i)) l)).
    { induction 1 as [|x l Nx Nl IH]; intros Hl; cbn; constructor.
      - rewrite in_map_iff. intros (y & Y1 & Y2). apply to_short_inj in Y1.
        + congruence.
        + apply Hl. now right.
        + apply Hl. now left.
      - apply IH. intros. apply Hl. now right. }
    apply Q; [apply seq_NoDup|]. intros i Hi. apply in_seq in Hi. lia.
  - split; [auto|]. rewrite D. auto.
Qed.

(** The 65537th tape gets the id of the first one, and cannot be found by its id. *)
Theorem C09_many_tapes_refuted (n : nat) : Z.of_nat n = 65536%Z ->
  let s := new_tapes (S n) (init E) in
  nth_error (ids s) n = Some 0%Z /\ find_tape s 0 = Some 0.
Proof.
  intros E2. destruct (new_tapes_spec (S n)) as (A & _ & _ & D & _). cbn zeta in A, D |- *.
  remember (new_tapes (S n) (init E)) as s eqn:Es. clear Es. split.
  - rewrite A, nth_error_map, (nth_error_nth' _ 0) by (rewrite seq_length; lia).
    rewrite seq_nth by lia. cbn [option_map plus]. rewrite E2. reflexivity.
  - unfold find_tape. unfold ids in A. destruct (tapes s) as [|t l]; [cbn in D; lia|].
    cbn [seq map] in A. inversion A as [[A1 A2]].
    cbn [find_from]. rewrite A1. reflexivity.
Qed.

(** ** Errors *)
(** An id that does not exist, and a trace_off outside any section: the error is
    reported and nothing changes. *)
Theorem C09_unknown_tape (s : mgr E) id : ~ In id (ids s) -> trace_on dflt s id = Thrown NO_TAPE_ID s.
Proof.
  intros H. unfold trace_on, find_tape.
  destruct (find_from 0 (tapes s) id) as [k|] eqn:F; auto. exfalso. apply H.
  apply find_from_spec in F. destruct F as (j & t & _ & A & B). unfold ids. rewrite <- B.
  apply in_map. eapply nth_error_In; eauto.
Qed.
Theorem C09_not_tracing (s : mgr E) c flag : idle s -> cur s = Some c -> c < length (tapes s) ->
  trace_off s flag = Thrown TAPING_NOT_ACTUALLY_TAPING s.
Proof.
  intros I C L. unfold trace_off. rewrite C. apply nth_error_Some in L.
  destruct (nth_error (tapes s) c) as [t|] eqn:T; [|congruence].
  rewrite (I t) by (eapply nth_error_In; eauto). reflexivity.
Qed.
(** trace_on of a tape that is being recorded is reported, but the call has already
    changed the current tape and pushed an entry: after the client caught the error,
    the trace_off of the open section does not restore the tape that was current
    before it. *)
Theorem C09_failed_trace_on_refuted :
  exists s s1 s2 s3 : mgr E,
    idle s /\ cur s = Some 0 /\
    trace_on dflt s 1 = Ret 0 s1 /\                               (* trace_on(1) *)
    trace_on dflt s1 1 = Thrown TAPING_TAPE_STILL_IN_USE s2 /\    (* caught *)
    trace_off s2 0 = Ret 0 s3 /\                                  (* trace_off() *)
    cur s3 <> cur s.
Proof.
  exists (new_tapes 2 (init E)). eexists _, _, _.
  split; [apply (new_tapes_spec 2)|]. split; [reflexivity|].
  split; [reflexivity|]. split; [reflexivity|]. split; [reflexivity|]. discriminate.
Qed.

(** ** C10: trace_on with buffer sizes *)
(** It never starts a trace: it reports failure and leaves the tape in write mode with
    the default sizes, whatever sizes are asked for. *)
Theorem C10_explicit_sizes_refuted (s : mgr E) id sz :
  NoDup (ids s) -> idle s -> In id (ids s) ->
  exists k s' t', trace_on_sizes dflt s id sz = Ret (-1) s' /\
    find_tape s' id = Some k /\ cur s' = Some k /\ nth_error (tapes s') k = Some t' /\
    t_mode t' = WriteAccess /\ t_sizes t' = dflt /\
    trace_on dflt s' id = Thrown TAPING_TAPE_STILL_IN_USE
       (set_cur (set_stack s' (cur s' :: stack s')) (Some k)).
Proof.
  intros N I H. destruct (find_in s id H) as (k & t & F & T & Tid).
  unfold trace_on_sizes. rewrite F. unfold init_new_tape. cbn [set_cur set_stack tapes]. rewrite T.
  rewrite (I t) by (eapply nth_error_In; eauto). cbn [Z.eqb].
  set (f := fun t : vtape E => mkTape (t_id t) WriteAccess [] (t_done t) (t_alloc t) dflt).
  set (s' := upd_tape _ k f).
  assert (T' : nth_error (tapes s') k = Some (f t)).
  { unfold s'. rewrite upd_nth. cbn [tapes set_cur set_stack]. rewrite T, Nat.eqb_refl. reflexivity. }
  assert (F' : find_tape s' id = Some k).
  { assert (Q : In id (ids s')).
    { unfold s'. rewrite upd_ids by reflexivity. exact H. }
    destruct (find_in s' id Q) as (k' & t2 & F2 & T2 & I2). rewrite F2. f_equal.
    eapply (ids_inj s').
    - unfold s'. rewrite upd_ids by reflexivity. exact N.
    - exact T2.
    - exact T'.
    - cbn. congruence. }
  exists k, s', (f t). split; [reflexivity|]. split; [exact F'|]. split; [reflexivity|]. split; [exact T'|].
  split; [reflexivity|]. split; [reflexivity|].
  unfold trace_on. rewrite F'. unfold init_new_tape. cbn [set_cur set_stack tapes]. rewrite T'. reflexivity.
Qed.
(** On a fresh tape the next overloaded operation writes to a null buffer. *)
Theorem C10_operation_after_it_undefined (sz : sizes) (e : E) : exists s',
  trace_on_sizes dflt (new_tapes 1 (init E)) 0 sz = Ret (-1) s' /\ event s' e = Ub E.
Proof. eexists. split; reflexivity. Qed.
(** trace_on(tag, keep) does start the trace, but returns 0, which its documentation
    calls failure (tape_interface.h:174-177). *)
Theorem C10_plain_return_value (s : mgr E) id : NoDup (ids s) -> idle s -> In id (ids s) ->
  exists s', trace_on dflt s id = Ret 0 s'.
Proof.
  intros N I H. destruct (find_in s id H) as (k & t & F & T & Tid).
  unfold trace_on. rewrite F. unfold init_new_tape. cbn [set_cur set_stack tapes]. rewrite T.
  rewrite (I t) by (eapply nth_error_In; eauto). eauto.
Qed.
(** trace_on(tag, keep) starts a trace: the named tape becomes the current one, is
    empty and records; the tape that was current is remembered; the other tapes and
    the last finished trace are untouched; the next operation is recorded there. *)
Theorem C10_plain_starts (s : mgr E) id : NoDup (ids s) -> idle s -> In id (ids s) ->
  exists k t s', trace_on dflt s id = Ret 0 s' /\
    nth_error (tapes s) k = Some t /\ t_id t = id /\
    cur s' = Some k /\ stack s' = cur s :: stack s /\
    nth_error (tapes s') k = Some (mkTape id WriteAccess [] (t_done t) true dflt) /\
    (forall j, j <> k -> nth_error (tapes s') j = nth_error (tapes s) j) /\
    forall e, exists s'', event s' e = Ret 0 s'' /\
      nth_error (tapes s'') k = Some (mkTape id WriteAccess [e] (t_done t) true dflt) /\
      (forall j, j <> k -> nth_error (tapes s'') j = nth_error (tapes s) j).
Proof.
  intros N I H. destruct (find_in s id H) as (k & t & F & T & Tid).
  exists k, t. unfold trace_on. rewrite F. unfold init_new_tape. cbn [set_cur set_stack tapes]. rewrite T.
  rewrite (I t) by (eapply nth_error_In; eauto).
  eexists. split; [reflexivity|]. split; [try exact T; reflexivity|]. split; [exact Tid|].
  split; [reflexivity|]. split; [reflexivity|].
  match goal with |- nth_error (tapes ?x) k = _ /\ _ => set (s' := x) end.
  assert (Tk : nth_error (tapes s') k = Some (mkTape id WriteAccess [] (t_done t) true dflt)).
  { unfold s', start_trace. rewrite !upd_nth. cbn [tapes set_cur set_stack]. rewrite T, Nat.eqb_refl.
    cbn. rewrite Tid. reflexivity. }
  assert (To : forall j, j <> k -> nth_error (tapes s') j = nth_error (tapes s) j).
  { intros j Hj. unfold s', start_trace. rewrite !upd_nth. cbn [tapes set_cur set_stack].
    apply Nat.eqb_neq in Hj. rewrite Hj. destruct (nth_error (tapes s) j); reflexivity. }
  split; [exact Tk|]. split; [exact To|].
  intros e. unfold event. change (cur s') with (Some k). cbv beta iota. rewrite Tk. cbn [t_mode t_alloc].
  eexists. split; [reflexivity|]. split.
  - rewrite upd_nth, Tk, Nat.eqb_refl. reflexivity.
  - intros j Hj. rewrite upd_nth, <- (To j Hj). apply Nat.eqb_neq in Hj. rewrite Hj.
    destruct (nth_error (tapes s') j); reflexivity.
Qed.
(** A number that names no tape is reported and changes nothing. *)
Theorem C10_unknown_tape (s : mgr E) id sz : ~ In id (ids s) ->
  trace_on dflt s id = Thrown NO_TAPE_ID s /\ trace_on_sizes dflt s id sz = Thrown NO_TAPE_ID s.
Proof.
  intros H. assert (F : find_tape s id = None).
  { unfold find_tape, ids in *. generalize 0. revert H. generalize (tapes s).
    intros l. induction l as [|t l IH]; intros Hl n; [reflexivity|]. cbn [find_from].
    destruct (Z.eqb_spec (t_id t) id) as [Eq|_]; [exfalso; apply Hl; now left|].
    apply IH. intros C. apply Hl. now right. }
  unfold trace_on, trace_on_sizes. rewrite F. split; reflexivity.
Qed.
End Props.

(** ** A concrete case: two tapes, a section nested in a section, two sweeps *)
Definition ex_prog : prog nat :=
  Ev 9 (Block 0 0 (Ev 1 (Block 1 1 (Ev 2 (Ev 3 (Done _))) (Sw 1 (Ev 4 (Done _))))) (Sw 0 (Ev 5 (Done _)))).
Example C09_ex : let d := mkSizes 1 1 1 1 in let s := new_tapes d 2 (init nat) in
  NoDup (ids s) /\ idle s /\ cur s = Some 0 /\ legal (ids s) [] ex_prog /\
  exists s', run d s (calls ex_prog) [] = Some (s', [Some [2;3]; Some [1;4]]) /\ cur s' = Some 0 /\ stack s' = [].
Proof.
  cbn zeta. destruct (@C09_fresh_tapes nat (mkSizes 1 1 1 1) 2 ltac:(lia)) as (A & B & _).
  split; [exact A|]. split; [exact B|]. split; [reflexivity|]. split.
  - cbn. intuition; try discriminate; try lia.
  - eexists. split; [reflexivity|]. split; reflexivity.
Qed.

Print Assumptions C09_sections.
Print Assumptions C09_one_section.
Print Assumptions C09_fresh_tapes.
Print Assumptions C09_many_tapes_refuted.
Print Assumptions C09_failed_trace_on_refuted.
Print Assumptions C10_explicit_sizes_refuted.
Lemma C10_nontrivial : let d := mkSizes 1 1 1 1 in let s := new_tapes d 2 (init nat) in
  NoDup (ids s) /\ idle s /\ In 1%Z (ids s) /\ cur s = Some 0%nat /\
  exists s', trace_on d s 1 = Ret 0 s' /\ cur s' = Some 1%nat /\ stack s' = [Some 0%nat].
Proof.
  cbn zeta. split; [vm_compute; repeat constructor; cbn; intuition discriminate|].
  split; [intros t [<-|[<-|[]]]; reflexivity|].
  split; [vm_compute; auto|]. split; [reflexivity|]. eexists. split; [reflexivity|]. split; reflexivity.
Qed.
