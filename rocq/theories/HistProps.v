(** * Property theorems: a tape over its whole life (C36, C37). *)
From Coq Require Import List Arith Lia ZArith Bool.
From Verif Require Import TapeModel TapeSpec TapeProofs TapeWriter TapeSweep TapeProps HistModel.
Import ListNotations.
Set Implicit Arguments.

Section ReadParams.
Variable V : Type.

Lemma slice_len (file : list V) p n : p + n <= length file -> length (slice file p n) = n.
Proof. intros H. unfold slice. rewrite firstn_length, skipn_length. lia. Qed.

Lemma firstn_slice (file : list V) p n : firstn (p + n) file = firstn p file ++ slice file p n.
Proof.
  unfold slice. revert file. induction p as [|p IH]; intros file; [reflexivity|].
  destruct file as [|x f]; [cbn; now rewrite firstn_nil|]. cbn [firstn skipn app Nat.add]. now rewrite IH.
Qed.

Lemma read_params_loop_ok vbs (file : list V) : 0 < vbs -> forall fuel ip k avail got,
  avail = slice file (k * vbs) (length avail) ->
  k * vbs + length avail <= length file -> ip <= k * vbs + length avail ->
  ip + (if length avail =? 0 then 1 else 0) < fuel ->
  read_params_loop fuel vbs file ip (k * vbs) avail got =
  Some (skipn (k * vbs + length avail - ip) (firstn (k * vbs + length avail) file) ++ got).
Proof.
  intros Hv. induction fuel as [|f IH]; intros ip k avail got Ha Hl Hi Hf; [lia|].
  cbn [read_params_loop]. destruct (Nat.eqb_spec ip 0) as [->|Hip].
  { f_equal. rewrite Nat.sub_0_r, skipn_all2; [reflexivity|]. rewrite firstn_length. lia. }
  set (a := length avail) in *.
  assert (Fs : firstn (k * vbs + a) file = firstn (k * vbs) file ++ avail).
  { rewrite firstn_slice, <- Ha. reflexivity. }
  rewrite Fs. assert (Lf : length (firstn (k * vbs) file) = k * vbs) by (rewrite firstn_length; lia).
  destruct (Nat.ltb_spec a ip) as [L|L].
  - destruct (Nat.ltb_spec 0 (ip - a)) as [P|P]; [|lia].
    rewrite Nat.sub_diag. cbn [skipn].
    destruct k as [|k]; [lia|].
    destruct (Nat.ltb_spec (S k * vbs) vbs) as [Q|Q]; [nia|].
    destruct (Nat.ltb_spec (length file) (S k * vbs)) as [Q'|Q']; [lia|]. cbn [orb].
    replace (S k * vbs - vbs) with (k * vbs) by lia.
    assert (Sl : length (slice file (k * vbs) vbs) = vbs) by (apply slice_len; lia).
    rewrite (IH (ip - a) k); rewrite ?Sl; try lia; auto.
    + f_equal. rewrite app_assoc. f_equal.
      replace (k * vbs + vbs) with (S k * vbs) by lia.
      replace (S k * vbs + a - ip) with (S k * vbs - (ip - a)) by lia.
      rewrite skipn_app. replace (S k * vbs - (ip - a) - length (firstn (S k * vbs) file)) with 0 by lia.
      reflexivity.
    + destruct (Nat.eqb_spec vbs 0); [lia|]. destruct (Nat.eqb_spec a 0); lia.
  - destruct (Nat.ltb_spec 0 (ip - ip)) as [P|P]; [lia|].
    destruct f as [|f']; [destruct (a =? 0); lia|]. cbn [read_params_loop].
    rewrite Nat.sub_diag. cbn [Nat.eqb].
    f_equal. f_equal. rewrite skipn_app, Lf.
    rewrite (skipn_all2 (firstn (k * vbs) file)) by lia. cbn [app]. f_equal. lia.
Qed.

(** read_params finds the last [np] values of the file. *)
Lemma read_params_ok (P ps : list V) vbs : 0 < vbs ->
  read_params (P ++ ps) (length (P ++ ps)) vbs (length ps) = Some ps.
Proof.
  intros Hv. unfold read_params. destruct (Nat.ltb_spec (length (P ++ ps)) (length (P ++ ps))); [lia|].
  set (n := length (P ++ ps)) in *. pose proof (Nat.div_mod n vbs ltac:(lia)) as D.
  assert (Sl : length (slice (P ++ ps) (n / vbs * vbs) (n mod vbs)) = n mod vbs)
    by (apply slice_len; fold n; lia).
  replace (n - n mod vbs) with (n / vbs * vbs) by lia.
  rewrite read_params_loop_ok; rewrite ?Sl; auto.
  - rewrite app_nil_r. f_equal. replace (n / vbs * vbs + n mod vbs) with n by lia.
    unfold n at 2. rewrite firstn_all. unfold n. rewrite app_length.
    replace (length P + length ps - length ps) with (length P) by lia.
    rewrite skipn_app, skipn_all, Nat.sub_diag. reflexivity.
  - fold n. lia.
  - unfold n in *. rewrite app_length in *. lia.
  - destruct (n mod vbs =? 0); lia.
Qed.
End ReadParams.

Section Props.
Variable V : Type.
Variable v0 : V.
Variables chO chL chV : nat.

(** ** Guards *)
(** the input of a trace is one the operators can produce (see C06) *)
Definition input_ok (capO capL capV : nat) (i : input V) : Prop :=
  length (i_op i) = capO /\ length (i_loc i) = capL /\ length (i_val i) = capV /\
  acts_ok capL [] (i_acts i) /\ length (i_ps i) <= capV /\ length (i_hdr i) <= statSpace.
(** the trace alone, on a tape never used before *)
Definition recording (i : input V) : option (tape V * stats) :=
  record v0 chO chL chV (i_op i) (i_loc i) (i_val i) (i_live i) (i_store i)
    (i_acts i) (i_ps i) (i_flag i) (i_hdr i).
(** no stream of the tape has a file of an earlier trace which the last trace, with
    statistics [st], does not write anew *)
Definition no_stale (old st : stats) : Prop :=
  (s_acc (st_op old) = true -> s_acc (st_op st) = true /\ 0 < s_num (st_op st)) /\
  (s_acc (st_loc old) = true -> s_acc (st_loc st) = true /\ 0 < s_num (st_loc st)) /\
  (s_acc (st_val old) = true -> s_acc (st_val st) = true /\ 0 < s_num (st_val st)).

Lemma keep_stream T cap (s_old s : stat) (old b : buf T) r : closed_stream cap b s r ->
  (s_acc s_old = true -> s_acc s = true /\ 0 < s_num s) ->
  keep_file s_old old b = b /\ keep_acc s_old s = s.
Proof.
  intros [C1 C2 C3 C4 C5] H. unfold keep_file, keep_acc. split.
  - destruct (bfile b) eqn:F; [reflexivity|]. destruct (s_acc s_old) eqn:A; [|reflexivity].
    destruct (H eq_refl) as [A' N]. destruct (C4 A') as [X|[_ X]]; [congruence|].
    rewrite C2, X in N. cbn in N. lia.
  - destruct s as [n a z]. cbn in *. destruct (s_acc s_old); [|reflexivity].
    destruct (H eq_refl) as [-> _]. reflexivity.
Qed.

(** a stream that used no file has none *)
Lemma record_no_files dO dL (dV : list V) nl store acts ps flag hdr t st :
  record v0 chO chL chV dO dL dV nl store acts ps flag hdr = Some (t, st) ->
  s_acc (st_op st) = false -> s_acc (st_loc st) = false -> s_acc (st_val st) = false ->
  bfile (opb t) = None /\ bfile (locb t) = None /\ bfile (valb t) = None.
Proof.
  unfold record. destruct (start_trace v0 chO chL chV dO dL dV) as [t0|]; [|discriminate].
  destruct (take_stock v0 chO chL chV t0 nl store) as [t1|]; [|discriminate].
  destruct (do_acts v0 chO chL chV t1 acts) as [t2|]; [|discriminate].
  unfold stop_trace. destruct (put_op v0 chO chL chV t2 end_of_tape 0) as [t3|]; [|discriminate].
  destruct (save_params chV t3 ps) as [t4|]; [|discriminate].
  assert (K : forall T ch (b b' : buf T) s, close_stream ch flag b = Some (b', s) -> s_acc s = false -> bfile b' = None).
  { intros T ch b b' s. unfold close_stream.
    destruct flag; cbn [orb].
    - destruct (if 0 <? bpos b then put_block ch b (bpos b) else Some b); [|discriminate].
      intros [= <- <-]. discriminate.
    - destruct (bfile b) eqn:F.
      + destruct (if 0 <? bpos b then put_block ch b (bpos b) else Some b); [|discriminate].
        intros [= <- <-]. discriminate.
      + intros [= <- <-] _. exact F. }
  destruct (close_stream chO flag (opb t4)) as [[o so]|] eqn:Eo; [|discriminate].
  destruct (close_stream chV flag (valb t4)) as [[v sv]|] eqn:Ev; [|discriminate].
  destruct (close_stream chL flag (locb t4)) as [[l sl]|] eqn:El; [|discriminate].
  intros [= <- <-]. cbn. intros A1 A2 A3.
  split; [eauto|]. split; [|eauto]. unfold write_header. rewrite A2. eauto.
Qed.

(** ** The state behind a finished trace *)
Variables capO capL capV : nat.
Record ready (ops : list (oper V)) (ps0 : list V) (N : nat) (o : obj V) : Prop := {
  rd_wr : o_wr o = false;
  rd_ex : exists O L W es e, @closed V capO capL capV (o_tape o) (o_stats o) O L W es e /\
     ops_of es = ops /\ S (length es) < N /\ exists P, W = P ++ ps0;
  rd_np : n_param (o_stats o) = length ps0;
  rd_len : length (o_params o) = length ps0 }.

Lemma open_ready ops ps0 N (o : obj V) : 0 < capV -> ready ops ps0 N o ->
  exists o1, open_tape o = Some o1 /\ o_tape o1 = o_tape o /\ o_stats o1 = o_stats o /\
    o_keep o1 = o_keep o /\ o_wr o1 = false /\
    o_params o1 = (if negb (o_keep o) && all_files (o_stats o) then ps0 else o_params o).
Proof.
  intros Hc [Wr (O & L & W & es & e & C & Eo & HN & P & EW) Np Ln]. unfold open_tape. rewrite Wr.
  destruct (negb (o_keep o) && all_files (o_stats o)) eqn:E.
  - rewrite Np. destruct (Nat.ltb_spec 0 (length ps0)) as [H|H].
    + destruct (cl_v C) as [C1 C2 C3 C4 C5].
      assert (A : s_acc (st_val (o_stats o)) = true).
      { apply andb_prop in E. destruct E as [_ E]. unfold all_files in E.
        apply andb_prop in E. apply E. }
      destruct (C4 A) as [F|[_ F]].
      * rewrite F, C1, C2, EW, read_params_ok by assumption. eexists. split; [reflexivity|]. cbn. auto 10.
      * rewrite EW in F. apply app_eq_nil in F. destruct F as [_ ->]. cbn in H. lia.
    + exists o. repeat split; auto. destruct ps0; [|cbn in H; lia]. cbn in Ln.
      destruct (o_params o); [reflexivity|discriminate].
  - exists o. auto 10.
Qed.

Lemma uses_ready Df Dr (ops : list (oper V)) ps0 N : sizes_ok chO chL chV capO capL capV ->
  forall h fuel (o : obj V), ready ops ps0 N o -> N <= fuel ->
  sized (length ps0) h ->
  ((exists k, In (Fwd k) h) -> Forall (reads_f Df) ops) ->
  (In Rev h -> Forall (reads_r Dr) ops /\ reverse_ok capV (o_stats o)) ->
  (sets h -> all_files (o_stats o) = false) ->
  (o_params o = ps0 \/ all_files (o_stats o) = false) ->
  uses chO chL chV fuel Df Dr o h = wanted ops (o_params o) h.
Proof.
  intros Z. assert (Zv : 0 < capV) by (destruct Z; lia).
  induction h as [|u h IH]; intros fuel o Rd HN Sz Hf Hr Hs Hp; [reflexivity|].
  cbn [uses wanted]. unfold use_step.
  destruct (open_ready Zv Rd) as (o1 & Eo & Et & Es & Ek & Ew & Ep). rewrite Eo.
  assert (Ep' : o_params o1 = o_params o).
  { rewrite Ep. destruct (negb (o_keep o) && all_files (o_stats o)) eqn:E; [|reflexivity].
    destruct Hp as [Hp|Hp]; [auto|]. apply andb_prop in E. destruct E as [_ E]. congruence. }
  destruct Rd as [Wr (O & L & W & es & e & C & Eq & HN' & P & EW) Np Ln].
  assert (S1 : s_size (st_op (o_stats o)) = capO) by apply C.
  assert (S2 : s_size (st_loc (o_stats o)) = capL) by apply C.
  assert (S3 : s_size (st_val (o_stats o)) = capV) by apply C.
  assert (Sz' : sized (length ps0) h) by (intros ps Hin; apply Sz; now right).
  assert (Hs' : sets h -> all_files (o_stats o) = false) by (intros [ps Hin]; apply Hs; exists ps; now right).
  assert (Hf' : (exists k, In (Fwd k) h) -> Forall (reads_f Df) ops)
    by (intros [k Hin]; apply Hf; exists k; now right).
  assert (Hr' : In Rev h -> Forall (reads_r Dr) ops /\ reverse_ok capV (o_stats o))
    by (intros Hin; apply Hr; now right).
  destruct Z as [zo zo2 zl zl2 zl3 zv zv2 zv3]. destruct u as [keep| |ps].
  - destruct (@sweep_f_spec V chO chL chV capO capL capV) with (D := Df) (sts := o_stats o) (O := O) (L := L)
      (W := W) (t := o_tape o) (es := es) (e := e) (fuel := fuel) as (t4 & E4 & C4); auto; try lia.
    { rewrite Eq. apply Hf. exists keep. now left. }
    rewrite Et, Es, E4, Ep', Eq. f_equal.
    rewrite (IH fuel (mkObj t4 (o_stats o) (o_params o) (o_keep o1 || keep) false)); cbn; auto.
    constructor; cbn; auto. exists O, L, W, es, e. eauto 10.
  - destruct (Hr (or_introl eq_refl)) as (R1 & R2).
    destruct (@sweep_r_spec V chO chL chV capO capL capV) with (D := Dr) (sts := o_stats o) (O := O) (L := L)
      (W := W) (t := o_tape o) (es := es) (e := e) (fuel := fuel) as (t4 & E4 & C4); auto; try lia.
    { rewrite Eq. auto. }
    { intros A. apply R2; auto. }
    { intros A. apply R2; auto. }
    rewrite Et, Es, E4, Ep', Eq. f_equal.
    rewrite (IH fuel (mkObj t4 (o_stats o) (o_params o) (o_keep o1) false)); cbn; auto.
    constructor; cbn; auto. exists O, L, W, es, e. eauto 10.
  - assert (Lp : length ps = length ps0) by (apply Sz; now left).
    rewrite Es, Np, Lp, Nat.eqb_refl. f_equal.
    rewrite (IH fuel (mkObj (o_tape o1) (o_stats o) ps (o_keep o1) false)); cbn; auto.
    + rewrite Et. constructor; cbn; auto. exists O, L, W, es, e. eauto 10.
    + right. apply Hs. exists ps. now left.
Qed.

(** Recording on a tape with any past never fails, and with no stale files it leaves
    exactly the new trace. *)
Lemma retrace_ready (o : obj V) (i : input V) : sizes_ok chO chL chV capO capL capV ->
  input_ok capO capL capV i -> o_wr o = false ->
  exists t st pieces o',
    record v0 chO chL chV (i_op i) (i_loc i) (i_val i) (i_live i) (i_store i)
      (i_acts i) (i_ps i) (i_flag i) (i_hdr i) = Some (t, st) /\
    retrace v0 chO chL chV o i = Some o' /\ o_wr o' = false /\ o_params o' = i_ps i /\
    n_param st = length (i_ps i) /\
    concat pieces = (if i_live i =? 0 then [] else i_store i) /\
    (i_flag i = true -> all_files st = true) /\
    (no_stale (o_stats o) st -> o_stats o' = st /\
       exists N, ready (stock_ops 0 pieces ++ spec_acts [] (i_acts i)) (i_ps i) N o').
Proof.
  intros Z (LO & LL & LV & AO & HP & HH) Wr.
  destruct (@record_closed V v0 chO chL chV capO capL capV (i_op i) (i_loc i) (i_val i) (i_live i)
    (i_store i) (i_acts i) (i_ps i) (i_flag i) (i_hdr i) Z LO LL LV AO HP HH)
    as (t & st & pieces & O & L & W & es & e & E & C & Eo & Np & Cc & _ & EP & Fl).
  exists t, st, pieces. unfold retrace. rewrite Wr, E. eexists.
  split; [reflexivity|]. split; [reflexivity|]. split; [reflexivity|]. split; [reflexivity|].
  split; [exact Np|]. split; [exact Cc|].
  split; [intros F; unfold all_files; destruct (Fl F) as (-> & -> & ->); reflexivity|].
  intros (N1 & N2 & N3). cbn [o_stats].
  destruct (keep_stream (st_op (o_stats o)) (opb (o_tape o)) (cl_o C) N1) as [A1 A2].
  destruct (keep_stream (st_loc (o_stats o)) (locb (o_tape o)) (cl_l C) N2) as [B1 B2].
  destruct (keep_stream (st_val (o_stats o)) (valb (o_tape o)) (cl_v C) N3) as [D1 D2].
  rewrite A1, A2, B1, B2, D1, D2.
  split; [now destruct st|]. exists (S (S (length es))).
  constructor; cbn; auto. exists O, L, W, es, e.
  replace (mkTape (opb t) (locb t) (valb t)) with t by now destruct t.
  replace (mkStats (st_op st) (st_loc st) (st_val st) (n_param st)) with st by now destruct st.
  auto 10.
Qed.

Lemma stale_dec (old st : stats) : no_stale old st \/ ~ no_stale old st.
Proof.
  assert (B : forall a b n, (a = true -> b = true /\ 0 < n) \/ ~ (a = true -> b = true /\ 0 < n)).
  { intros [] [] [|n]; try (left; intros; split; auto; lia); try (left; discriminate);
    right; intros Q; destruct (Q eq_refl); try discriminate; lia. }
  unfold no_stale.
  destruct (B (s_acc (st_op old)) (s_acc (st_op st)) (s_num (st_op st)));
  destruct (B (s_acc (st_loc old)) (s_acc (st_loc st)) (s_num (st_loc st)));
  destruct (B (s_acc (st_val old)) (s_acc (st_val st)) (s_num (st_val st))); tauto.
Qed.

(** ** C36: the calls after a trace see that trace, whatever was recorded before. *)
Theorem C36_last_trace (o : obj V) (i : input V) :
  sizes_ok chO chL chV capO capL capV -> input_ok capO capL capV i -> o_wr o = false ->
  exists t st pieces o' N,
    recording i = Some (t, st) /\ retrace v0 chO chL chV o i = Some o' /\
    concat pieces = (if i_live i =? 0 then [] else i_store i) /\
    (i_flag i = true -> all_files st = true) /\
    (no_stale (o_stats o) st -> o_stats o' = st /\
     forall fuel Df Dr h, N <= fuel ->
       let ops := stock_ops 0 pieces ++ spec_acts [] (i_acts i) in
       ((exists k, In (Fwd k) h) -> Forall (reads_f Df) ops) ->
       (In Rev h -> Forall (reads_r Dr) ops /\ reverse_ok capV st) ->
       ~ sets h ->
       uses chO chL chV fuel Df Dr o' h = wanted ops (i_ps i) h).
Proof.
  intros Z Hi Wr. destruct (@retrace_ready o i Z Hi Wr) as (t & st & pieces & o' & E & R & W' & Ps & Np & Cc & Fl & H).
  destruct (stale_dec (o_stats o) st) as [D|D].
  - destruct (H D) as [Es [N Rd]]. exists t, st, pieces, o', N. split; [exact E|]. split; [exact R|]. split; [exact Cc|].
    split; [exact Fl|]. intros _. split; [exact Es|]. intros fuel Df Dr h HN ops Hf Hr Hs.
    rewrite <- Ps. apply uses_ready with (ps0 := i_ps i) (N := N); auto.
    + intros ps Hin. exfalso. apply Hs. now exists ps.
    + rewrite Es. exact Hr.
    + tauto.
  - exists t, st, pieces, o', 0. split; [exact E|]. split; [exact R|]. split; [exact Cc|]. split; [exact Fl|]. tauto.
Qed.

Lemma no_stale_memory (old st : stats) : s_acc (st_op old) = false -> s_acc (st_loc old) = false ->
  s_acc (st_val old) = false -> no_stale old st.
Proof. intros A B C. unfold no_stale. rewrite A, B, C. repeat split; discriminate. Qed.

(** ** C37: set_param_vec on a tape that is not entirely on disk *)
Theorem C37_parameters_used (o : obj V) (i : input V) :
  sizes_ok chO chL chV capO capL capV -> input_ok capO capL capV i -> o_wr o = false ->
  exists t st pieces o' N,
    recording i = Some (t, st) /\ retrace v0 chO chL chV o i = Some o' /\
    concat pieces = (if i_live i =? 0 then [] else i_store i) /\
    (no_stale (o_stats o) st -> all_files st = false ->
     forall fuel Df Dr h, N <= fuel ->
       let ops := stock_ops 0 pieces ++ spec_acts [] (i_acts i) in
       ((exists k, In (Fwd k) h) -> Forall (reads_f Df) ops) ->
       (In Rev h -> Forall (reads_r Dr) ops /\ reverse_ok capV st) ->
       sized (length (i_ps i)) h ->
       uses chO chL chV fuel Df Dr o' h = wanted ops (i_ps i) h).
Proof.
  intros Z Hi Wr. destruct (@retrace_ready o i Z Hi Wr) as (t & st & pieces & o' & E & R & W' & Ps & Np & Cc & Fl & H).
  destruct (stale_dec (o_stats o) st) as [D|D].
  - destruct (H D) as [Es [N Rd]]. exists t, st, pieces, o', N. split; [exact E|]. split; [exact R|]. split; [exact Cc|].
    intros _ AF fuel Df Dr h HN ops Hf Hr Hs.
    rewrite <- Ps. apply uses_ready with (ps0 := i_ps i) (N := N); auto.
    + rewrite Es. exact Hr.
    + rewrite Es. auto.
  - exists t, st, pieces, o', 0. split; [exact E|]. split; [exact R|]. split; [exact Cc|]. tauto.
Qed.

(** On a tape that is entirely on disk (trace_off(1)) the parameters that were set have no
    effect: the sweep uses the recorded ones. *)
Theorem C37_disk_refuted (o : obj V) (i : input V) :
  sizes_ok chO chL chV capO capL capV -> input_ok capO capL capV i -> o_wr o = false ->
  i_flag i = true -> i_keep i = false ->
  exists t st pieces o' N,
    recording i = Some (t, st) /\ retrace v0 chO chL chV o i = Some o' /\
    (no_stale (o_stats o) st ->
     forall fuel Df Dr ps k, N <= fuel -> length ps = length (i_ps i) ->
       let ops := stock_ops 0 pieces ++ spec_acts [] (i_acts i) in
       Forall (reads_f Df) ops ->
       uses chO chL chV fuel Df Dr o' [SetPar ps; Fwd k] = [ParsSet; Swept ops (i_ps i)]).
Proof.
  intros Z Hi Wr Fg Kp. destruct (@retrace_ready o i Z Hi Wr) as (t & st & pieces & o' & E & R & W' & Ps & Np & Cc & Fl & H).
  assert (Zv : 0 < capV) by (destruct Z; lia).
  assert (Ko : o_keep o' = false).
  { unfold retrace in R. rewrite Wr, E in R. injection R as <-. exact Kp. }
  destruct (stale_dec (o_stats o) st) as [D|D].
  - destruct (H D) as [Es [N Rd]]. exists t, st, pieces, o', N. split; [exact E|]. split; [exact R|].
    intros _ fuel Df Dr ps k HN Lp ops Hf.
    cbn [uses]. unfold use_step at 1.
    destruct (open_ready Zv Rd) as (o1 & Eo & Et & Es1 & Ek & Ew & Ep). rewrite Eo, Es1, (rd_np Rd), Lp, Nat.eqb_refl.
    f_equal. set (o2 := mkObj _ _ _ _ _).
    assert (Rd2 : ready ops (i_ps i) N o2).
    { destruct Rd as [A B C' D']. constructor; cbn; auto. rewrite Et. exact B. }
    unfold use_step. destruct (open_ready Zv Rd2) as (o3 & Eo3 & Et3 & Es3 & Ek3 & Ew3 & Ep3).
    rewrite Eo3. unfold o2 in Et3, Es3, Ep3. cbn [o_tape o_stats o_keep o_params] in *.
    rewrite Ek, Ko, Es, (Fl Fg) in Ep3. cbn in Ep3.
    destruct Rd as [_ (O & L & W & es & e & C & Eq & HN' & P & EW) _ _].
    assert (S1 : s_size (st_op (o_stats o')) = capO) by apply C.
    assert (S2 : s_size (st_loc (o_stats o')) = capL) by apply C.
    assert (S3 : s_size (st_val (o_stats o')) = capV) by apply C.
    destruct Z as [zo zo2 zl zl2 zl3 zv zv2 zv3].
    destruct (@sweep_f_spec V chO chL chV capO capL capV) with (D := Df) (sts := o_stats o') (O := O) (L := L)
      (W := W) (t := o_tape o') (es := es) (e := e) (fuel := fuel) as (t4 & E4 & C4); auto; try lia.
    { rewrite Eq. exact Hf. }
    rewrite Et3, Et, Es3, E4, Ep3, Eq. reflexivity.
  - exists t, st, pieces, o', 0. split; [exact E|]. split; [exact R|]. tauto.
Qed.

(** A call of set_param_vec with a wrong number of parameters is reported, but after it
    every further call on the tape fails, also a new trace. *)
Theorem C37_wrong_number_refuted (o : obj V) (i : input V) :
  sizes_ok chO chL chV capO capL capV -> input_ok capO capL capV i -> o_wr o = false ->
  exists t st o', recording i = Some (t, st) /\ retrace v0 chO chL chV o i = Some o' /\
    (no_stale (o_stats o) st -> forall fuel Df Dr ps h, length ps <> length (i_ps i) ->
       uses chO chL chV fuel Df Dr o' (SetPar ps :: h) = Mismatch :: map (fun _ => Failed) h /\
       forall i', retrace v0 chO chL chV (fst (use_step chO chL chV fuel Df Dr o' (SetPar ps))) i' = None).
Proof.
  intros Z Hi Wr. destruct (@retrace_ready o i Z Hi Wr) as (t & st & pieces & o' & E & R & W' & Ps & Np & Cc & Fl & H).
  assert (Zv : 0 < capV) by (destruct Z; lia).
  destruct (stale_dec (o_stats o) st) as [D|D].
  - destruct (H D) as [Es [N Rd]]. exists t, st, o'. split; [exact E|]. split; [exact R|]. intros _ fuel Df Dr ps h Lp.
    cbn [uses]. unfold use_step.
    destruct (open_ready Zv Rd) as (o1 & Eo & Et & Es1 & Ek & Ew & Ep). rewrite Eo, Es1, (rd_np Rd).
    apply Nat.eqb_neq in Lp. rewrite Lp. cbn [fst]. split; [|reflexivity]. f_equal.
    assert (G : forall (q : obj V), o_wr q = true -> uses chO chL chV fuel Df Dr q h = map (fun _ => Failed) h).
    { induction h as [|u h IH]; intros q Hq; [reflexivity|]. cbn [uses map].
      unfold use_step, open_tape. rewrite Hq. f_equal. apply IH, Hq. }
    apply G. reflexivity.
  - exists t, st, o'. split; [exact E|]. split; [exact R|]. tauto.
Qed.

(** ** C36, the files of an earlier trace *)
(** A trace that was written to disk, then one of the same length kept in memory: every
    forward sweep after the second trace evaluates the first one, with its parameters. *)
Theorem C36_stale_files_refuted (i1 i2 : input V) :
  sizes_ok chO chL chV capO capL capV -> input_ok capO capL capV i1 -> input_ok capO capL capV i2 ->
  i_flag i1 = true -> i_keep i2 = false ->
  exists t1 st1 t2 st2 pieces1 o1 o2 N,
    recording i1 = Some (t1, st1) /\ recording i2 = Some (t2, st2) /\
    retrace v0 chO chL chV (fresh V) i1 = Some o1 /\ retrace v0 chO chL chV o1 i2 = Some o2 /\
    concat pieces1 = (if i_live i1 =? 0 then [] else i_store i1) /\
    (s_acc (st_op st2) = false -> s_acc (st_loc st2) = false -> s_acc (st_val st2) = false ->
     s_num (st_op st1) = s_num (st_op st2) -> s_num (st_loc st1) = s_num (st_loc st2) ->
     s_num (st_val st1) = s_num (st_val st2) -> length (i_ps i1) = length (i_ps i2) ->
     o_stats o1 = st1 /\
     forall fuel Df Dr k, N <= fuel ->
       let ops1 := stock_ops 0 pieces1 ++ spec_acts [] (i_acts i1) in
       Forall (reads_f Df) ops1 ->
       uses chO chL chV fuel Df Dr o2 [Fwd k] = [Swept ops1 (i_ps i1)]).
Proof.
  intros Z Hi1 Hi2 Fg Kp.
  assert (Zv : 0 < capV) by (destruct Z; lia).
  destruct (@retrace_ready (fresh V) i1 Z Hi1 eq_refl) as (t1 & st1 & pieces1 & o1 & E1 & R1 & W1 & Ps1 & Np1 & Cc1 & Fl1 & H1).
  destruct H1 as [Es1 [N Rd1]]; [now apply no_stale_memory|].
  destruct (@retrace_ready o1 i2 Z Hi2 W1) as (t2 & st2 & pieces2 & o2 & E2 & R2 & W2 & Ps2 & Np2 & Cc2 & Fl2 & _).
  destruct Hi2 as (LO & LL & LV & AO & HP & HH).
  destruct (@record_closed V v0 chO chL chV capO capL capV (i_op i2) (i_loc i2) (i_val i2) (i_live i2)
    (i_store i2) (i_acts i2) (i_ps i2) (i_flag i2) (i_hdr i2) Z LO LL LV AO HP HH)
    as (t2' & st2' & pc & O2 & L2 & V2 & es2 & e2 & E2' & C2 & _).
  rewrite E2 in E2'. injection E2' as <- <-.
  exists t1, st1, t2, st2, pieces1, o1, o2, N. split; [exact E1|]. split; [exact E2|]. split; [exact R1|]. split; [exact R2|]. split; [exact Cc1|].
  intros A1 A2 A3 M1 M2 M3 Lp. split; [exact Es1|].
  intros fuel Df Dr k HN ops1 Hf.
  assert (Rd2 : ready ops1 (i_ps i1) N o2).
  { unfold retrace in R2. rewrite W1, E2 in R2. injection R2 as <-.
    specialize (Fl1 Fg). unfold all_files in Fl1.
    apply andb_prop in Fl1. destruct Fl1 as [F12 F3]. apply andb_prop in F12. destruct F12 as [F1 F2].
    destruct Rd1 as [_ (O & L & W & es & e & C & Eq & HN' & P & EW) Np _]. rewrite Es1 in *.
    assert (K : forall T cap (b1 b2 : buf T) s1 s2 r r2, closed_stream cap b1 s1 r -> closed_stream cap b2 s2 r2 ->
       s_acc s1 = true -> s_acc s2 = false -> s_num s1 = s_num s2 -> bfile b2 = None ->
       closed_stream cap (keep_file s1 b1 b2) (keep_acc s1 s2) r).
    { intros T cap b1 b2 s1 s2 r r2 [x1 x2 x3 x4 x5] [y1 y2 y3 y4 y5] X1 X2 X3 X4.
      unfold keep_file, keep_acc. rewrite X4, X1, X2. constructor; cbn; auto; try congruence.
    }
    assert (Nf : bfile (opb t2) = None /\ bfile (locb t2) = None /\ bfile (valb t2) = None)
      by (eapply record_no_files; eauto).
    destruct Nf as (Nf1 & Nf2 & Nf3).
    constructor; cbn; auto; try congruence.
    exists O, L, W, es, e. split; [|eauto].
    destruct C as [Co Cl Cv CL CE CN NL NV PO PO1 PL PV AOp AL AV].
    constructor; cbn; auto; try (eapply K; eauto using cl_o, cl_l, cl_v).
    all: first [rewrite Np2, <- Lp, <- Np; exact NV | rewrite ?F1, ?F2, ?F3; cbn; intros; discriminate]. }
  assert (K2 : o_keep o2 = false /\ all_files (o_stats o2) = true).
  { unfold retrace in R2. rewrite W1, E2 in R2. injection R2 as <-. cbn. split; [exact Kp|].
    specialize (Fl1 Fg). unfold all_files in *. cbn. rewrite Es1.
    apply andb_prop in Fl1. destruct Fl1 as [F12 F3]. apply andb_prop in F12. destruct F12 as [F1 F2].
    rewrite F1, F2, F3. reflexivity. }
  destruct K2 as [K2 K3].
  cbn [uses]. unfold use_step.
  destruct (open_ready Zv Rd2) as (o3 & Eo3 & Et3 & Es3 & Ek3 & Ew3 & Ep3).
  rewrite Eo3. rewrite K2, K3 in Ep3. cbn in Ep3.
  destruct Rd2 as [_ (O & L & W & es & e & C & Eq & HN' & P & EW) _ _].
  assert (S1 : s_size (st_op (o_stats o2)) = capO) by apply C.
  assert (S2 : s_size (st_loc (o_stats o2)) = capL) by apply C.
  assert (S3 : s_size (st_val (o_stats o2)) = capV) by apply C.
  destruct Z as [zo zo2 zl zl2 zl3 zv zv2 zv3].
  destruct (@sweep_f_spec V chO chL chV capO capL capV) with (D := Df) (sts := o_stats o2) (O := O) (L := L)
    (W := W) (t := o_tape o2) (es := es) (e := e) (fuel := fuel) as (t4 & E4 & C4); auto; try lia.
  { rewrite Eq. exact Hf. }
  rewrite Et3, Es3, E4, Ep3, Eq. reflexivity.
Qed.
End Props.

(** ** Concrete cases, with tiny buffers *)
Definition hx (capO capL capV : nat) (store : list nat) (acts : list (act nat)) (ps : list nat) (flag keep : bool)
  : input nat :=
  mkIn (repeat 7 capO) (repeat 9 capL) (repeat 8 capV) (length store) store acts ps flag (repeat 5 40) keep.
Definition hx_life (l : list (input nat)) (h : list (use nat)) : option (list (outc nat)) :=
  match retraces 0 1000 1000 1000 (fresh nat) l with
  | None => None
  | Some o => Some (uses 1000 1000 1000 300 ex_lf ex_lr o h)
  end.
Definition hx_short (a : nat) : list (act nat) := [AOp 3 0 [a] [200 + a]; AOp mult_a_a 0 [a; a; 30] []].
Fixpoint swept_ops (h : list (outc nat)) : list (list nat) :=
  match h with
  | [] => []
  | Swept ops ps :: h' => (length ops :: map (fun o => match snd (fst o) with [] => 0 | a :: _ => a end) (firstn 3 ops) ++ ps)
      :: swept_ops h'
  | _ :: h' => [] :: swept_ops h'
  end.

(** The hypotheses of C36_last_trace hold of a tape on which a trace that used all three
    files was recorded before; the second trace uses them too. *)
Lemma C36_nontrivial :
  let i1 := hx 4 50 6 (seq 60 13) ex_acts [1] false false in
  let i2 := hx 4 50 6 (seq 20 13) ex_acts [5] false false in
  input_ok 4 50 6 i1 /\ input_ok 4 50 6 i2 /\ sizes_ok 1000 1000 1000 4 50 6 /\
  exists o1 t2 st2, retrace 0 1000 1000 1000 (fresh nat) i1 = Some o1 /\ o_wr o1 = false /\
    s_acc (st_op (o_stats o1)) = true /\ recording 0 1000 1000 1000 i2 = Some (t2, st2) /\
    no_stale (o_stats o1) st2.
Proof.
  intros i1 i2. destruct ex_hyps as (A & B & _).
  split; [repeat split; cbn; auto; unfold statSpace; try lia; apply B|].
  split; [repeat split; cbn; auto; unfold statSpace; try lia; apply B|].
  split; [exact A|].
  destruct (retrace 0 1000 1000 1000 (fresh nat) i1) as [o1|] eqn:E1; [|vm_compute in E1; discriminate].
  destruct (recording 0 1000 1000 1000 i2) as [[t2 st2]|] eqn:E2; [|vm_compute in E2; discriminate].
  exists o1, t2, st2. vm_compute in E1, E2. injection E1 as <-. injection E2 as <- <-.
  split; [reflexivity|]. split; [reflexivity|]. split; [reflexivity|]. split; [reflexivity|].
  unfold no_stale. cbn. repeat split; intros; auto; lia.
Qed.

(** sweeps forward, back, with new parameters (memory), on a tape with a past *)
Lemma C37_nontrivial :
  option_map swept_ops (hx_life [hx 10 60 10 [] (hx_short 3) [1] false false;
                                 hx 10 60 10 [] (hx_short 4) [2] false false]
                                [Fwd true; SetPar [9]; Fwd false; Rev])
  = Some [[2; 4; 4; 2]; []; [2; 4; 4; 9]; [2; 4; 4; 9]].
Proof. vm_compute. reflexivity. Qed.

(** the three failures on concrete tapes *)
Lemma C36_C37_refuted_concrete :
  (* the second trace (location 4, parameter 2) is not what the sweep sees *)
  option_map swept_ops (hx_life [hx 10 60 10 [] (hx_short 3) [1] true false;
                                 hx 10 60 10 [] (hx_short 4) [2] false false] [Fwd false; SetPar [9]; Fwd false])
    = Some [[2; 3; 3; 1]; []; [2; 3; 3; 1]]
  (* a trace on disk does not use the parameters that were set *)
  /\ option_map swept_ops (hx_life [hx 10 60 10 [] (hx_short 3) [1] true false] [SetPar [9]; Fwd false])
    = Some [[]; [2; 3; 3; 1]]
  (* a wrong number of parameters *)
  /\ hx_life [hx 10 60 10 [] (hx_short 3) [1] false false] [SetPar [9; 8]; Fwd false; SetPar [9]]
    = Some [Mismatch; Failed; Failed].
Proof. repeat split; vm_compute; reflexivity. Qed.
