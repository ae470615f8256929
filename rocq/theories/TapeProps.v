(** * Property theorems: the tape streams (C06, C07). *)
From Coq Require Import List Arith Lia ZArith Bool.
From Verif Require Import TapeModel TapeSpec TapeProofs TapeWriter TapeSweep.
Import ListNotations.
Set Implicit Arguments.

(** ** Sweep histories *)
Inductive sweep_kind := Fw | Rv.

Section Props.
Variable V : Type.
Variable v0 : V.
Variables chO chL chV : nat.

(** the results of a series of sweeps over a finished trace *)
Fixpoint sweeps (fuel : nat) (Df Dr : nat -> dec) (sts : stats) (t : tape V) (h : list sweep_kind)
  : option (list (list (oper V))) :=
  match h with
  | [] => Some []
  | k :: h' =>
      match (match k with Fw => sweep_f chO chL chV fuel Df sts t
                        | Rv => sweep_r chO chL chV fuel Dr sts t end) with
      | None => None
      | Some (ops, t') => match sweeps fuel Df Dr sts t' h' with
                          | None => None
                          | Some r => Some (ops :: r)
                          end
      end
  end.

Definition expected (ops : list (oper V)) (k : sweep_kind) : list (oper V) :=
  match k with Fw => ops | Rv => rev ops end.

(** The buffer sizes for which the tape works: the operation buffer holds at
    least 3 codes, the location buffer more than the 42 statistics words, the
    value buffer 5 constants, and none exceeds one I/O chunk (2^30 bytes). *)
Record sizes_ok (capO capL capV : nat) : Prop := {
  z_o : 3 <= capO; z_o2 : capO < chO;
  z_l : statSpace < capL; z_l2 : capL < chL; z_l3 : (Z.of_nat capL < 2 ^ 64)%Z;
  z_v : 5 <= capV; z_v2 : capV < chV; z_v3 : (Z.of_nat capV < 2 ^ 64)%Z }.

(** When a reverse sweep is going to be done: the parameters stored behind the
    constants lie in the last value block, and with a value file there is at
    least one value or parameter in it. *)
Definition reverse_ok (capV : nat) (sts : stats) : Prop :=
  s_acc (st_val sts) = true ->
  n_param sts <= s_num (st_val sts) mod capV /\ 0 < s_num (st_val sts).

(** appending behind the stock operations *)
Lemma with_last_app (pre ops : list (oper V)) f : ops <> [] ->
  with_last (pre ++ ops) f = pre ++ with_last ops f.
Proof.
  intros H. unfold with_last. rewrite rev_app_distr.
  destruct (rev ops) eqn:E; simpl.
  - apply (f_equal (@rev _)) in E. rewrite rev_involutive in E. contradiction.
  - rewrite rev_app_distr, rev_involutive, app_assoc. reflexivity.
Qed.
Lemma with_last_stock loc pieces temp lhs newop :
  with_last (stock_ops (V:=V) loc pieces) (fuse_prod temp lhs newop) = stock_ops loc pieces.
Proof.
  unfold with_last. destruct (rev (stock_ops loc pieces)) as [|o r] eqn:E.
  - apply (f_equal (@rev _)) in E. rewrite rev_involutive in E. auto.
  - assert (H : In o (stock_ops loc pieces)).
    { apply in_rev. rewrite E. left; auto. }
    assert (K : fuse_prod temp lhs newop o = o).
    { clear E. revert loc H. induction pieces; simpl; [tauto|].
      intros loc [<-|H]; [reflexivity|eauto]. }
    rewrite K. apply (f_equal (@rev _)) in E. rewrite rev_involutive in E. auto.
Qed.
Lemma with_last_nil (ops : list (oper V)) f : ops <> [] -> with_last ops f <> [].
Proof.
  unfold with_last. intros H. destruct (rev ops) eqn:E.
  - apply (f_equal (@rev _)) in E. rewrite rev_involutive in E. contradiction.
  - intros Q. apply app_eq_nil in Q. destruct Q; discriminate.
Qed.

Lemma acts_behind_stock capL loc pieces l : forall ops,
  acts_ok (V:=V) capL ops l ->
  acts_ok capL (stock_ops loc pieces ++ ops) l
  /\ spec_acts (stock_ops loc pieces ++ ops) l = stock_ops loc pieces ++ spec_acts ops l.
Proof.
  induction l as [|a l IH]; intros ops H; simpl in *; [auto|].
  destruct H as (A & B).
  assert (E : spec_act (stock_ops loc pieces ++ ops) a = stock_ops loc pieces ++ spec_act ops a).
  { destruct a; simpl in *.
    - rewrite app_assoc. reflexivity.
    - apply with_last_app. destruct A as (o & opc & ls & x & vs & -> & _).
      intros Q. apply app_eq_nil in Q. destruct Q; discriminate.
    - destruct ops as [|o ops].
      + rewrite app_nil_r. rewrite with_last_stock. simpl. rewrite app_nil_r. auto.
      + apply with_last_app. discriminate. }
  rewrite E. destruct (IH _ B) as (X & Y). split; [split|]; auto.
  destruct a; simpl in *; auto.
  destruct A as (o & opc & ls & x & vs & -> & Z). rewrite app_assoc. eauto 10.
Qed.

(** Recording never fails; what it leaves behind. *)
Lemma record_closed :
  forall capO capL capV dO dL (dV : list V) numLives store acts ps flag hdr,
  sizes_ok capO capL capV ->
  length dO = capO -> length dL = capL -> length dV = capV ->
  acts_ok capL [] acts -> length ps <= capV -> length hdr <= statSpace ->
  exists t sts pieces O L W es e,
    record v0 chO chL chV dO dL dV numLives store acts ps flag hdr = Some (t, sts)
    /\ @closed V capO capL capV t sts O L W es e
    /\ ops_of es = stock_ops 0 pieces ++ spec_acts [] acts
    /\ n_param sts = length ps
    /\ concat pieces = (if numLives =? 0 then [] else store)
    /\ (forall p, In p pieces -> p <> [])
    /\ (exists P, W = P ++ ps)
    /\ (flag = true -> s_acc (st_op sts) = true /\ s_acc (st_loc sts) = true /\ s_acc (st_val sts) = true).
Proof.
  intros capO capL capV dO dL dV numLives store acts ps flag hdr Z LO LL LV AO HP HH.
  destruct Z as [zo zo2 zl zl2 zl3 zv zv2 zv3]. unfold record.
  destruct (@start_trace_spec V v0 chO chL chV capO capL capV) with (dO := dO) (dL := dL) (dV := dV)
    as (t0 & E0 & L0); auto.
  rewrite E0.
  destruct (@take_stock_spec V v0 chO chL chV capO capL capV) with (t := t0) (nl := numLives) (store := store)
    as (t1 & es1 & s1 & pieces & E1 & L1 & K1 & C1 & N1 & O1); auto.
  rewrite E1.
  destruct (@acts_behind_stock capL 0 pieces acts [] AO) as (A1 & A2).
  rewrite app_nil_r in A1, A2.
  destruct (@do_acts_spec V v0 chO chL chV capO capL capV) with (l := acts) (t := t1) (es := es1) (s := s1)
    as (t2 & es2 & s2 & E2 & L2 & K2 & O2); auto.
  { rewrite O1. auto. }
  rewrite E2.
  destruct (@stop_trace_spec V v0 chO chL chV capO capL capV) with (t := t2) (es := es2) (s := s2) (ps := ps) (flag := flag) (hdr := hdr)
    as (t3 & sts & O & L & W & es3 & e & E3 & C3 & O3 & P3 & PW & FL); auto.
  exists t3, sts, pieces, O, L, W, es3, e. split; [exact E3|]. split; [exact C3|].
  split; [rewrite O3, O2, O1, A2; reflexivity|]. auto 10.
Qed.

(** Main theorem: recording never fails, and every sweep of every series of
    forward and reverse sweeps delivers the recorded operations. *)
Theorem tape_roundtrip :
  forall capO capL capV dO dL (dV : list V) numLives store acts ps flag hdr,
  sizes_ok capO capL capV ->
  length dO = capO -> length dL = capL -> length dV = capV ->
  acts_ok capL [] acts -> length ps <= capV -> length hdr <= statSpace ->
  exists t sts pieces,
    record v0 chO chL chV dO dL dV numLives store acts ps flag hdr = Some (t, sts)
    /\ n_param sts = length ps
    /\ concat pieces = (if numLives =? 0 then [] else store)
    /\ (forall p, In p pieces -> p <> [])
    /\ exists N, forall fuel Df Dr h, N <= fuel ->
       let ops := stock_ops 0 pieces ++ spec_acts [] acts in
       (In Fw h -> Forall (reads_f Df) ops) ->
       (In Rv h -> Forall (reads_r Dr) ops /\ reverse_ok capV sts) ->
       sweeps fuel Df Dr sts t h = Some (map (expected ops) h).
Proof.
  intros capO capL capV dO dL dV numLives store acts ps flag hdr Z LO LL LV AO HP HH.
  destruct (@record_closed capO capL capV dO dL dV numLives store acts ps flag hdr Z LO LL LV AO HP HH)
    as (t3 & sts & pieces & O & L & W & es3 & e & E3 & C3 & OO & P3 & CC & NN & _ & _).
  destruct Z as [zo zo2 zl zl2 zl3 zv zv2 zv3].
  exists t3, sts, pieces. split; auto. split; auto. split; auto. split; auto.
  exists (S (S (length es3))). intros fuel Df Dr h HF. cbv zeta. set (ops := stock_ops 0 pieces ++ _) in *. intros RF RR.
  assert (S1 : s_size (st_op sts) = capO) by apply C3.
  assert (S2 : s_size (st_loc sts) = capL) by apply C3.
  assert (S3 : s_size (st_val sts) = capV) by apply C3.
  clear E3. revert t3 C3 RF RR. induction h as [|k h IH]; intros t3 C3 RF RR; [reflexivity|].
  destruct k; simpl.
  - destruct (@sweep_f_spec V chO chL chV capO capL capV) with (D := Df) (sts := sts) (O := O) (L := L)
      (W := W) (t := t3) (es := es3) (e := e) (fuel := fuel) as (t4 & E4 & C4); auto; try lia.
    { rewrite OO. apply RF. left; auto. }
    rewrite E4, (IH t4 C4), OO; auto.
    + intros. apply RF. right; auto.
    + intros. apply RR. right; auto.
  - destruct (RR (or_introl eq_refl)) as (RR1 & RR2).
    destruct (@sweep_r_spec V chO chL chV capO capL capV) with (D := Dr) (sts := sts) (O := O) (L := L)
      (W := W) (t := t3) (es := es3) (e := e) (fuel := fuel) as (t4 & E4 & C4); auto; try lia.
    { rewrite OO. auto. }
    { intros A. apply RR2; auto. }
    { intros A. apply RR2; auto. }
    rewrite E4, (IH t4 C4), OO; auto.
    intros. apply RF. right; auto.
Qed.

End Props.

(** ** C06 and C07 *)
Theorem C06_forward_sweep_reads_recorded_trace :
  forall (V : Type) (v0 : V) chO chL chV capO capL capV dO dL (dV : list V)
         numLives store acts ps flag hdr,
  sizes_ok chO chL chV capO capL capV ->
  length dO = capO -> length dL = capL -> length dV = capV ->
  acts_ok capL [] acts -> length ps <= capV -> length hdr <= statSpace ->
  exists t sts pieces N,
    record v0 chO chL chV dO dL dV numLives store acts ps flag hdr = Some (t, sts)
    /\ concat pieces = (if numLives =? 0 then [] else store)
    /\ forall fuel Df, N <= fuel ->
       Forall (reads_f Df) (stock_ops 0 pieces ++ spec_acts [] acts) ->
       exists t', sweep_f chO chL chV fuel Df sts t
                  = Some (stock_ops 0 pieces ++ spec_acts [] acts, t').
Proof.
  intros V v0 chO chL chV capO capL capV dO dL dV nl store acts ps flag hdr Z A B C D E F.
  destruct (@tape_roundtrip V v0 chO chL chV capO capL capV dO dL dV nl store acts ps flag hdr Z A B C D E F)
    as (t & sts & pieces & R & _ & P & _ & N & H).
  exists t, sts, pieces, N. split; auto. split; auto. intros fuel Df HN HF.
  specialize (H fuel Df (fun _ => DDone) [Fw] HN). simpl in H.
  destruct (sweep_f chO chL chV fuel Df sts t) as [[ops t']|]; simpl in H.
  - exists t'. assert (X : Some [ops] = Some [stock_ops 0 pieces ++ spec_acts [] acts]).
    { apply H; auto. intros [Q|[]]; discriminate. }
    inversion X; auto.
  - exfalso. assert (X : @None (list (list (oper V))) = Some [stock_ops 0 pieces ++ spec_acts [] acts]); [|discriminate].
    apply H; auto. intros [Q|[]]; discriminate.
Qed.

Theorem C07_reverse_sweep_reads_recorded_trace :
  forall (V : Type) (v0 : V) chO chL chV capO capL capV dO dL (dV : list V)
         numLives store acts ps flag hdr,
  sizes_ok chO chL chV capO capL capV ->
  length dO = capO -> length dL = capL -> length dV = capV ->
  acts_ok capL [] acts -> length ps <= capV -> length hdr <= statSpace ->
  exists t sts pieces N,
    record v0 chO chL chV dO dL dV numLives store acts ps flag hdr = Some (t, sts)
    /\ concat pieces = (if numLives =? 0 then [] else store)
    /\ forall fuel Dr, N <= fuel -> reverse_ok capV sts ->
       Forall (reads_r Dr) (stock_ops 0 pieces ++ spec_acts [] acts) ->
       exists t', sweep_r chO chL chV fuel Dr sts t
                  = Some (rev (stock_ops 0 pieces ++ spec_acts [] acts), t').
Proof.
  intros V v0 chO chL chV capO capL capV dO dL dV nl store acts ps flag hdr Z A B C D E F.
  destruct (@tape_roundtrip V v0 chO chL chV capO capL capV dO dL dV nl store acts ps flag hdr Z A B C D E F)
    as (t & sts & pieces & R & _ & P & _ & N & H).
  exists t, sts, pieces, N. split; auto. split; auto. intros fuel Dr HN RO HF.
  specialize (H fuel (fun _ => DDone) Dr [Rv] HN). simpl in H.
  destruct (sweep_r chO chL chV fuel Dr sts t) as [[ops t']|]; simpl in H.
  - exists t'. assert (X : Some [ops] = Some [rev (stock_ops 0 pieces ++ spec_acts [] acts)]).
    { apply H; auto. intros [Q|[]]; discriminate. }
    inversion X; auto.
  - exfalso. assert (X : @None (list (list (oper V))) = Some [rev (stock_ops 0 pieces ++ spec_acts [] acts)]); [|discriminate].
    apply H; auto. intros [Q|[]]; discriminate.
Qed.

(** every series of sweeps over one trace *)
Theorem C06_C07_any_sweep_history :
  forall (V : Type) (v0 : V) chO chL chV capO capL capV dO dL (dV : list V)
         numLives store acts ps flag hdr,
  sizes_ok chO chL chV capO capL capV ->
  length dO = capO -> length dL = capL -> length dV = capV ->
  acts_ok capL [] acts -> length ps <= capV -> length hdr <= statSpace ->
  exists t sts pieces,
    record v0 chO chL chV dO dL dV numLives store acts ps flag hdr = Some (t, sts)
    /\ n_param sts = length ps
    /\ concat pieces = (if numLives =? 0 then [] else store)
    /\ (forall p, In p pieces -> p <> [])
    /\ exists N, forall fuel Df Dr h, N <= fuel ->
       let ops := stock_ops 0 pieces ++ spec_acts [] acts in
       (In Fw h -> Forall (reads_f Df) ops) ->
       (In Rv h -> Forall (reads_r Dr) ops /\ reverse_ok capV sts) ->
       sweeps chO chL chV fuel Df Dr sts t h = Some (map (expected ops) h).
Proof. exact tape_roundtrip. Qed.

(** ** A concrete non-trivial case: tiny buffers, many spills to all three files *)
Definition ex_lf (opc : nat) : dec :=
  if opc =? take_stock_op then DLoc (fun n => DLoc (fun _ => dvals n DDone))
  else if opc =? 3 then DLoc (fun _ => DVal DDone)
  else DLoc (fun _ => DLoc (fun _ => DLoc (fun _ => DDone))).
Definition ex_lr (opc : nat) : dec :=
  if opc =? take_stock_op then DLoc (fun _ => DLoc (fun n => dvals n DDone))
  else if opc =? 3 then DLoc (fun _ => DVal DDone)
  else DLoc (fun _ => DLoc (fun _ => DLoc (fun _ => DDone))).
Definition ex_round (i : nat) : list (act nat) :=
  [AOp 3 0 [i] [100 + i]; AOp mult_a_a 0 [i; i; 40 + i] []; AUpdInc _ (40 + i) 7 eq_plus_prod;
   AOp mult_a_a 0 [i; 7; 50 + i] []; AUpd _ (50 + i) 8].
Definition ex_acts : list (act nat) := concat (map ex_round (seq 0 9)).
Definition ex_rec (capO capL capV : nat) (store : list nat) (acts : list (act nat)) (ps : list nat) (flag : bool) :=
  record 0 1000 1000 1000 (repeat 7 capO) (repeat 9 capL) (repeat 8 capV) (length store) store
    acts ps flag (repeat 5 40).
Definition ex_run capO capL capV store acts ps flag h :=
  match ex_rec capO capL capV store acts ps flag with
  | None => None
  | Some (t, sts) => sweeps 1000 1000 1000 200 ex_lf ex_lr sts t h
  end.

Example ex_hyps : sizes_ok 1000 1000 1000 4 50 6 /\ acts_ok 50 [] ex_acts
  /\ (exists t sts, ex_rec 4 50 6 (seq 60 13) ex_acts [1] false = Some (t, sts)
       /\ reverse_ok 6 sts
       /\ s_acc (st_op sts) = true /\ s_acc (st_loc sts) = true /\ s_acc (st_val sts) = true)
  /\ length (spec_acts [] ex_acts) = 27.
Proof.
  split; [|split; [|split]].
  - constructor; unfold statSpace; try lia; simpl; lia.
  - assert (G : forall l ops, acts_ok 50 ops (concat (map ex_round l))).
    { induction l; intros ops; cbn [concat map]; [exact I|].
      unfold ex_round at 1. cbn [app acts_ok].
      split; [cbn; repeat split; lia || discriminate|].
      split; [cbn; repeat split; lia || discriminate|].
      split; [split; [reflexivity|discriminate]|].
      split; [cbn; repeat split; lia || discriminate|].
      split; [|apply IHl].
      cbn [spec_act act_ok]. eexists _, mult_a_a, [_; _], _, []. split; [reflexivity|reflexivity]. }
    apply G.
  - assert (X : match ex_rec 4 50 6 (seq 60 13) ex_acts [1] false with
       | Some (t, sts) => (n_param sts <=? s_num (st_val sts) mod 6) && (0 <? s_num (st_val sts))
            && s_acc (st_op sts) && s_acc (st_loc sts) && s_acc (st_val sts) = true
       | None => False end) by (vm_compute; reflexivity).
    destruct (ex_rec 4 50 6 (seq 60 13) ex_acts [1] false) as [[t sts]|]; [|contradiction].
    exists t, sts. rewrite !andb_true_iff, Nat.leb_le, Nat.ltb_lt in X.
    split; auto. unfold reverse_ok. tauto.
  - vm_compute. reflexivity.
Qed.

(** ** Where the claim fails *)

(** A file-backed buffer larger than one I/O chunk (2^30 bytes) whose size is not
    a multiple of it can never be read again: readRemaining asks for the whole
    block behind the chunks already read (valuetape.h:612-626). *)
Theorem C06_large_buffer_refuted :
  forall (T : Type) ch (s : stat) (b : buf T),
  0 < ch -> ch < s_size s -> s_size s mod ch <> 0 -> s_size s <= s_num s ->
  bcap b = s_size s -> s_acc s = true ->
  prepare_for_gen ch s b = None.
Proof.
  intros T ch s b H0 H1 H2 H3 HC HA. unfold prepare_for_gen. rewrite HA.
  rewrite Nat.min_l by auto.
  destruct (Nat.eqb_spec (s_size s) 0) as [n|n]; [lia|]. unfold read_bloc.
  assert (G : forall n i (b1 b2 : buf T), bcap b1 = s_size s -> read_chunks ch n i b1 = Some b2 ->
             bcap b2 = s_size s).
  { clear n. induction n as [|n IHn0]; simpl; intros i b1 b2 Q E; [congruence|].
    destruct (fread b1 (i * ch) ch) eqn:F; [|discriminate]. eapply IHn0; [|eauto].
    unfold fread in F. destruct (bfile b1); [|discriminate].
    destruct (_ && _) eqn:K; [|discriminate]. apply andb_prop in K. destruct K as (K1 & K2).
    apply Nat.leb_le in K1. apply Nat.leb_le in K2.
    inversion F; subst. unfold bcap in *. simpl. rewrite blit_length; auto.
    rewrite slice_length; lia. }
  destruct (read_chunks ch (s_size s / ch) 0 (fopen b)) as [b2|] eqn:E; auto.
  destruct (Nat.eqb_spec (s_size s mod ch) 0); [contradiction|].
  unfold fread. destruct (bfile b2); auto.
  rewrite (G _ _ (fopen b) _ HC E).
  assert (1 <= s_size s / ch) by (apply Nat.div_le_lower_bound; lia).
  destruct (Nat.leb_spec (s_size s / ch * ch + s_size s) (s_size s)); [nia|].
  rewrite andb_false_r. reflexivity.
Qed.

(** More parameters than the value buffer holds: trace_off writes past the end
    of the buffer (capacity - NUM_PARAM wraps around, valuetape.cpp:327). *)
Theorem C06_many_params_refuted :
  forall (V : Type) chV (t : tape V) ps,
  bpos (valb t) <= bcap (valb t) -> bcap (valb t) < length ps ->
  (Z.of_nat (length ps) < 2 ^ 63)%Z ->
  save_params chV t ps = None.
Proof.
  intros V chV t ps HP HN HZ. unfold save_params.
  assert (S : sub64 (bcap (valb t)) (length ps)
              = (2 ^ 64 + Z.of_nat (bcap (valb t)) - Z.of_nat (length ps))%Z).
  { unfold sub64. symmetry. apply Z.mod_unique with (q := (-1)%Z); lia. }
  rewrite S. replace (_ <? _)%Z with true by (symmetry; apply Z.ltb_lt; lia).
  clear S HZ. assert (H : bcap (valb t) < bpos (valb t) + length ps) by lia. clear HN.
  revert t HP H. induction ps as [|p ps IH]; intros t HP H; simpl in *; [lia|].
  unfold put_val, write_adv.
  destruct (Nat.ltb_spec (bpos (valb t)) (bcap (valb t))); auto.
  apply IH; unfold bcap in *; simpl; rewrite ?upd_length; lia.
Qed.

(** Location buffer of 42 words or fewer: the forward sweep skips the
    first blocks twice and delivers other locations than the recorded ones. *)
Theorem C06_small_lbufsize_refuted :
  exists store acts, acts_ok 42 [] acts
  /\ ex_rec 100 42 100 store acts [] false <> None
  /\ ex_run 100 42 100 store acts [] false [Fw] <> Some [stock_ops 0 [store] ++ spec_acts [] acts]
  /\ ex_run 100 43 100 store acts [] false [Fw] = Some [stock_ops 0 [store] ++ spec_acts [] acts].
Proof.
  exists [5; 6], (map (fun i => AOp 3 0 [i] [100 + i]) (seq 0 50)). split.
  { generalize (seq 0 50) at 1. intros l. generalize (@nil (oper nat)).
    induction l; intros ops; simpl; [exact I|]. split; [repeat split; lia || discriminate|auto]. }
  split; [vm_compute; discriminate|]. split; [vm_compute; discriminate|].
  vm_compute. reflexivity.
Qed.

(** trace_off(1) for a trace without any constant: the forward sweep works, the
    reverse sweep positions in a file that was never created. *)
Theorem C07_empty_value_file_refuted :
  exists acts t sts, acts_ok 60 [] acts /\ ex_rec 10 60 10 [] acts [] true = Some (t, sts)
  /\ (exists r, sweeps 1000 1000 1000 200 ex_lf ex_lr sts t [Fw] = Some r)
  /\ sweeps 1000 1000 1000 200 ex_lf ex_lr sts t [Rv] = None.
Proof.
  eexists [AOp mult_a_a 0 [1; 2; 3] []], _, _. split.
  { repeat split; simpl; try lia; discriminate. }
  split; [vm_compute; reflexivity|].
  split; [eexists|]; vm_compute; reflexivity.
Qed.

(** Parameters that reach back into an earlier value block: discard_params_r
    re-reads a block of 12 values (the enumeration constant VAL_BUFFER_SIZE)
    and the reverse sweep delivers wrong constants or fails. *)
Theorem C07_params_over_block_refuted :
  exists acts ps t sts r r', acts_ok 60 [] acts
  /\ ex_rec 10 60 20 [] acts ps true = Some (t, sts)
  /\ sweeps 1000 1000 1000 200 ex_lf ex_lr sts t [Fw] = Some [r]
  /\ r = spec_acts [] acts
  /\ sweeps 1000 1000 1000 200 ex_lf ex_lr sts t [Rv] = r' /\ r' <> Some [rev r].
Proof.
  exists (map (fun i => AOp 3 0 [i] [100 + i]) (seq 0 10)), (seq 50 14).
  eexists _, _, _, _. split.
  { repeat split; simpl; try lia; discriminate. }
  split; [vm_compute; reflexivity|].
  split; [vm_compute; reflexivity|]. split; [reflexivity|].
  split; [vm_compute; reflexivity|]. discriminate.
Qed.
