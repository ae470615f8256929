(** * Property theorems: the value stack (C08). *)
From Coq Require Import List Arith Lia ZArith Bool.
From Verif Require Import TayModel TaySpec TayProofs.
Import ListNotations.
Set Implicit Arguments.

Section Props.
Variable V : Type.
Variable cap : nat.

(** Every recording and every series of (complete or partial) reverse sweeps after
    it: each sweep pops exactly what was pushed, last in first out, whatever was
    spilled to the file, and whatever the tape held before. *)
Theorem C08_value_stack (s0 : tay V) (ws : list (wr V)) (hs : list (list (rd V))) :
  0 < cap -> (Z.of_nat cap < 2 ^ 64)%Z ->
  legal cap false ws ->
  length (contents ws) <> cap ->
  (forall rs, In rs hs -> fits cap (length (contents ws)) rs) ->
  exists r, session cap s0 ws hs = Some r /\ Forall2 (sweep_spec (contents ws)) hs r.
Proof.
  intros Cp C64 L N F. unfold session.
  destruct (@wrs_WI V cap Cp C64 ws [] (taylor_begin s0) false L (begin_WI Cp s0)) as (s & E & W); [discriminate|].
  rewrite E. apply sweeps_CI; auto. apply close_CI; auto.
Qed.

(** The same for a recording, where every pushed value is counted twice in the
    counter that decides where a reverse sweep starts reading. *)
Lemma rec_sim ws : forall st s prev, 0 < cap -> legal cap prev ws -> List.Forall (@single V) ws ->
  WI cap st s -> (prev = true -> 0 < tpos s) ->
  exists s', do_wrs cap s ws = Some s' /\
    do_recs cap (count_up s (length st)) ws = Some (count_up s' (length (fold_left (@spec_wr V) ws st))) /\
    WI cap (fold_left (@spec_wr V) ws st) s'.
Proof.
  induction ws as [|w ws IH]; intros st s prev Cp L F H P.
  - exists s. auto.
  - inversion F as [|? ? F1 F2]; subst. cbn [do_wrs do_recs fold_left].
    destruct w as [v|p n|p n|p k d n|]; try contradiction; cbn [legal] in L; cbn [do_wr do_rec spec_wr].
    + destruct (scaylor_WI Cp v H) as (s1 & E & W & Q). rewrite E.
      assert (E' : write_scaylor cap (count_up (count_up s (length st)) 1) v = Some (count_up s1 (length (st ++ [v])))).
      { clear - E. rewrite app_length. cbn [length].
        unfold write_scaylor, push1 in *. cbn [count_up tpos].
        destruct (tpos s =? cap).
        - unfold store in *. cbn [put_block count_up tpos] in *.
          destruct (0 <? cap); [|discriminate]. inversion E; subst. unfold at_pos, with_buf, put_block, count_up. cbn [tbuf tpos tnum tfile tnext tcore].
          apply f_equal. f_equal. lia.
        - unfold store in *. cbn [count_up tpos] in *. destruct (tpos s <? cap); [|discriminate].
          inversion E; subst. unfold at_pos, with_buf, count_up. cbn [tbuf tpos tnum tfile tnext tcore].
          apply f_equal. f_equal. lia. }
      rewrite E'. eapply IH; eauto.
    + destruct (del_WI Cp H (P (proj1 L))) as (v & s1 & E & Est & W).
      assert (E' : delete_scaylor cap (count_up s (length st)) = Some (v, count_up s1 (length st))).
      { clear - E. unfold delete_scaylor, pop1 in *. cbn [count_up tpos]. destruct (tpos s); [discriminate|].
        destruct (n <? cap); [|discriminate]. inversion E; subst. reflexivity. }
      rewrite E, E'.
      assert (C : count_down (count_up s1 (length st)) = count_up s1 (length (removelast st))).
      { unfold count_down, count_up. cbn [tbuf tpos tnum tfile tnext tcore]. f_equal.
        assert (length st = length (removelast st) + 1) by (rewrite Est at 1; rewrite app_length; reflexivity). lia. }
      rewrite C. eapply IH; eauto; [apply L|discriminate].
Qed.

Theorem C08_recorded_stack (s0 : tay V) (ws : list (wr V)) (hs : list (list (rd V))) :
  0 < cap -> (Z.of_nat cap < 2 ^ 64)%Z ->
  legal cap false ws -> List.Forall (@single V) ws ->
  length (contents ws) <> cap ->
  (forall rs, In rs hs -> fits cap (length (contents ws)) rs) ->
  exists r, rec_session cap s0 ws hs = Some r /\ Forall2 (sweep_spec (contents ws)) hs r.
Proof.
  intros Cp C64 L Si N F. unfold rec_session.
  destruct (@rec_sim ws [] (taylor_begin s0) false Cp L Si (begin_WI Cp s0)) as (s & E & E' & W); [discriminate|].
  assert (Z : count_up (taylor_begin s0) (length (@nil V)) = taylor_begin s0) by reflexivity.
  rewrite Z in E'. rewrite E'. fold (contents ws) in *.
  assert (Q : stop_tays (count_up s (length (contents ws))) = taylor_close s \/
    exists f, tfile s = Some f /\ stop_tays (count_up s (length (contents ws))) =
      mkTay (tbuf s) 0 ((tnum s + length (contents ws) + tpos s) / 2) (tfile (taylor_close s)) (tnext s) true).
  { unfold stop_tays, taylor_close. cbn [count_up tfile]. destruct (tfile s) as [f|] eqn:Fs.
    - right. exists f. split; [auto|]. cbn [put_block tbuf tpos tnum tfile tnext tcore count_up].
      rewrite Fs. reflexivity.
    - left. cbn [tfile tbuf tpos tnum tnext tcore count_up]. reflexivity. }
  apply sweeps_CI; auto. pose proof (close_CI Cp W N) as CC.
  destruct Q as [Q|(f & Fs & Q)]; rewrite Q; auto.
  destruct CC as [C1 C2 C3]. unfold taylor_close in *. rewrite Fs in *.
  cbn [put_block tbuf tpos tnum tfile tnext tcore] in *.
  constructor; cbn [tbuf tpos tnum tfile tnext tcore]; auto.
  rewrite <- Nat.add_assoc, (Nat.add_comm (length _)), Nat.add_assoc, C1.
  replace (length (contents ws) + length (contents ws)) with (length (contents ws) * 2) by lia.
  apply Nat.div_mul. lia.
Qed.

(** delete_scaylor hands back the value of the write_scaylor it undoes. *)
Theorem C08_delete_scaylor (s0 : tay V) (ws : list (wr V)) (v : V) :
  0 < cap -> (Z.of_nat cap < 2 ^ 64)%Z -> legal cap false ws ->
  exists s s', do_wrs cap (taylor_begin s0) (ws ++ [WS v]) = Some s /\
    delete_scaylor cap s = Some (v, s').
Proof.
  intros Cp C64 L.
  destruct (@wrs_WI V cap Cp C64 ws [] (taylor_begin s0) false L (begin_WI Cp s0)) as (s & E & W); [discriminate|].
  destruct (scaylor_WI Cp v W) as (s1 & E1 & W1 & P1).
  destruct (del_WI Cp W1 P1) as (v' & s2 & E2 & E3 & _).
  exists s1, s2. split.
  - clear - E E1. revert E. generalize (taylor_begin s0). induction ws as [|w ws IH]; intros t E; cbn [app do_wrs] in *.
    + inversion E; subst. cbn [do_wr]. now rewrite E1.
    + destruct (do_wr cap t w); [|discriminate]. now apply IH.
  - rewrite removelast_last in E3. apply app_inj_tail in E3. destruct E3 as [_ ->]. exact E2.
Qed.

(** ** Where the English property fails *)

(** A stack that fills the buffer exactly, so that nothing was spilled: the first
    pop of the reverse sweep uses a null file handle. *)
Theorem C08_exactly_full_refuted (s0 : tay V) (l : list V) (rs : list (rd V)) :
  0 < cap -> (Z.of_nat cap < 2 ^ 64)%Z -> length l = cap ->
  session cap s0 (map (@WS V) l) [RS :: rs] = None.
Proof.
  intros Cp C64 L. unfold session.
  assert (A : forall l s, tpos s + length l <= cap -> exists s', do_wrs cap s (map (@WS V) l) = Some s' /\
     tpos s' = tpos s + length l /\ tfile s' = tfile s).
  { clear - Cp. induction l as [|v l IH]; intros s H; cbn [map do_wrs do_wr length] in *.
    - exists s. split; [auto|]. split; [lia|auto].
    - unfold write_scaylor. destruct (Nat.eqb_spec (tpos s) cap); [lia|].
      unfold push1. rewrite store_some by lia. cbn [at_pos with_buf].
      destruct (IH (at_pos (with_buf s (set (tbuf s) (tpos s) v)) (S (tpos s)))) as (s' & E & F & G).
      + cbn. lia.
      + exists s'. split; [exact E|]. split; [rewrite F; cbn; lia|rewrite G; reflexivity]. }
  destruct (A l (taylor_begin s0)) as (s & E & F & G); [cbn; lia|]. rewrite E.
  cbn [taylor_begin tpos tfile plus] in F, G. rewrite L in F.
  cbn [do_sweeps]. unfold taylor_close. rewrite G. cbn [taylor_back tcore tbuf tpos tnum tfile].
  unfold taylor_back. cbn [tnum tcore tfile]. rewrite F, Nat.mod_same by lia.
  cbn [do_rds do_rd]. unfold get_taylor. cbn [tpos Nat.eqb]. reflexivity.
Qed.

(** A block that lies across the buffer boundary ([0 < position < degree], all the
    wanted values are there): get_taylors writes the top value one past the end of
    the caller's array and leaves one element of the array as it was. *)
Theorem C08_get_taylors_across_boundary_refuted (s : tay V) (st T : _) (h d : nat) :
  0 < cap -> RI cap st h s -> 0 < tpos s < d -> d <= h -> d <= cap ->
  exists T' s' top, get_taylors cap s T d = Some (T', s') /\
    nth_error st (h - 1) = Some top /\ T' d = top /\ T' (d - tpos s) = T (d - tpos s).
Proof.
  intros Cp H P L Ld. unfold get_taylors.
  assert (D : forall n (b T : nat -> V) t, n <= t ->
    snd (drain b n T t) = t - n /\
    forall i, fst (drain b n T t) i = if (t - n <? i) && (i <=? t) then b (i + n - t - 1) else T i).
  { clear. induction n as [|n IH]; intros b T t L; cbn [drain].
    - split; [cbn; lia|]. intros i. cbn [fst].
      destruct (Nat.ltb_spec (t - 0) i), (Nat.leb_spec i t); cbn; auto; lia.
    - destruct (IH b (set T t (b n)) (t - 1)) as [A B]; [lia|]. split; [rewrite A; lia|].
      intros i. rewrite B.
      destruct (Nat.ltb_spec (t - 1 - n) i), (Nat.leb_spec i (t - 1)), (Nat.ltb_spec (t - S n) i), (Nat.leb_spec i t);
        cbn [andb]; try lia; try (rewrite set_neq by lia); auto.
      + f_equal. lia.
      + assert (i = t) by lia. subst. rewrite set_eq. f_equal. lia. }
  cbn [get_loop]. destruct (Nat.ltb_spec (tpos s) d); [|lia].
  destruct (D (tpos s) (tbuf s) T d) as [D1 D2]; [lia|].
  destruct (drain (tbuf s) (tpos s) T d) as [T1 t1]. cbn [fst snd] in D1, D2.
  (* the next block *)
  assert (R0 : RI cap st (h - tpos s) (at_pos s 0)).
  { destruct H as [[C1 C2 C3] H1 (k & E1 & E2 & E3 & E4 & E5)].
    constructor; [constructor; auto|lia|]. exists k. cbn [at_pos tnext tpos tfile tbuf].
    split; [lia|]. split; [lia|]. split; [lia|]. split; [auto|]. intros; lia. }
  destruct (load_RI Cp R0) as (s1 & A & B & C); [reflexivity|lia|].
  assert (A' : get_tay_block_r cap s = Some s1) by exact A.
  rewrite A'. cbn [get_loop]. destruct (Nat.ltb_spec (tpos s1) (d - tpos s)); [lia|].
  subst t1.
  assert (PI : forall n (s : tay V) (T : nat -> V) t, n <= tpos s -> tpos s <= cap -> n <= t -> exists (T' : nat -> V) s', pop_into cap s T t n = Some (T', s') /\
     forall i, t <= i -> T' i = T i).
  { clear. induction n as [|n IH]; intros s' T' t L1 L2 L3; cbn [pop_into].
    - eauto.
    - unfold pop1. destruct (tpos s') as [|q] eqn:Q; [lia|].
      destruct (Nat.ltb_spec q cap); [|lia].
      destruct (IH (at_pos s' q) (set T' (t - 1) (tbuf s' q)) (t - 1)) as (T2 & s2 & E & F); [cbn; lia|cbn; lia|lia|].
      exists T2, s2. split; [auto|]. intros i Hi. rewrite F by lia. apply set_neq. lia. }
  destruct (PI (d - tpos s) s1 T1 (d - tpos s)) as (T' & s' & E & F); [lia|lia|lia|].
  destruct (pop_RI Cp H) as (top & _ & _ & _ & Top & _); [lia|].
  exists T', s', top. split; [exact E|]. split; [exact Top|]. split.
  - rewrite F by lia. rewrite D2.
    destruct (Nat.ltb_spec (d - tpos s) d), (Nat.leb_spec d d); cbn [andb]; try lia.
    destruct H as [_ _ (k & E1 & E2 & E3 & E4 & E5)].
    assert (Q : nth_error st (h - 1) = Some (tbuf s (tpos s - 1))).
    { rewrite E2. replace (k * cap + tpos s - 1) with (k * cap + (tpos s - 1)) by lia. apply E5. lia. }
    rewrite Q in Top. inversion Top. f_equal. lia.
  - rewrite F by lia. rewrite D2.
    destruct (Nat.ltb_spec (d - tpos s) (d - tpos s)); [lia|]. reflexivity.
Qed.

(** A block longer than the buffer: the size_t subtraction capacity - keep wraps, the
    flush is skipped and the write runs off the end of the buffer. *)
Theorem C08_block_longer_than_buffer_refuted (s : tay V) (p : nat -> V) (keep : nat) :
  tpos s <= cap -> cap < keep -> (Z.of_nat keep < 2 ^ 64)%Z ->
  (Z.of_nat (tpos s) <= Z.of_nat cap - Z.of_nat keep + 2 ^ 64)%Z ->
  write_taylor cap s p keep = None.
Proof.
  intros L K K64 W. unfold write_taylor. cbn [write_block].
  assert (O : over cap s keep = false).
  { unfold over. replace ((Z.of_nat cap - Z.of_nat keep) mod 2 ^ 64)%Z with (Z.of_nat cap - Z.of_nat keep + 2 ^ 64)%Z.
    - apply not_true_is_false. intro E. apply Z.gtb_lt in E. lia.
    - apply (Z.mod_unique _ _ (-1)); lia. }
  rewrite O.
  destruct (copy_in cap s (tpos s) p 0 keep); auto.
  destruct (Nat.leb_spec (tpos s + keep) cap); auto. lia.
Qed.
End Props.

(** ** Concrete cases *)
(** buffer of 3 cells, 7 values spilled over three blocks, two reverse sweeps *)
Example C08_ex_meets : let ws := map (@WS nat) [1;2;3;4] ++ [WS 9; WDel; WT (fun i => 5 + i) 2; WS 8] in
  let hs := [[RS; RT (fun _ => 0) 0; RS; RS; RT (fun _ => 0) 1]; [RS; RTp (fun _ => 0) 3 2]] in
  legal 3 false ws /\ contents ws = [1;2;3;4;5;6;8] /\ length (contents ws) <> 3 /\
  (forall rs, In rs hs -> fits 3 (length (contents ws)) rs) /\
  exists T T' T'', session 3 (mkTay (fun _ => 77) 2 5 (Some [1;1]) 0%Z false) ws hs =
    Some [[Val 8; Arr T; Val 6; Val 5; Arr T']; [Val 8; Arr T'']] /\ T' 0 = 4 /\
    map T'' [0;1;2;3;4;5] = [2;3;4;2;5;6].
Proof.
  cbn zeta. split; [cbn; lia|]. split; [reflexivity|]. split; [cbn; lia|]. split.
  - intros rs [<-|[<-|[]]]; cbn; repeat split; lia.
  - eexists _, _, _. split; [cbv; reflexivity|]. split; reflexivity.
Qed.
(** a recording that spills: counted twice, halved, read back *)
Example C08_ex_recording : let ws := map (@WS nat) [1;2;3;4] ++ [WS 9; WDel; WS 5] in
  legal 2 false ws /\ List.Forall (@single nat) ws /\ length (contents ws) <> 2 /\
  rec_session 2 (mkTay (fun _ => 77) 2 5 (Some [1;1]) 0%Z false) ws [[RS; RS]; [RS; RS; RS; RS; RS]] =
    Some [[Val 5; Val 4]; [Val 5; Val 4; Val 3; Val 2; Val 1]].
Proof. cbn zeta. split; [cbn; lia|]. split; [repeat constructor|]. split; [cbn; lia|]. reflexivity. Qed.
(** the boundary case is reachable: 3 cells, stack of 5, get_taylors of 3 *)
Example C08_ex_boundary : exists s T', 
  do_wrs 3 (taylor_begin (mkTay (fun _ => 0) 0 0 None 0%Z false)) (map (@WS nat) [1;2;3;4;5]) = Some s /\
  session 3 s (map (@WS nat) [1;2;3;4;5]) [[RT (fun _ => 0) 3]] = Some [[Arr T']] /\
  map T' [0;1;2;3] = [3;0;4;5].
Proof. eexists _, _. split; [cbv; reflexivity|]. split; [cbv; reflexivity|]. reflexivity. Qed.

Print Assumptions C08_value_stack.
Print Assumptions C08_recorded_stack.
Print Assumptions C08_delete_scaylor.
Print Assumptions C08_exactly_full_refuted.
Print Assumptions C08_get_taylors_across_boundary_refuted.
Print Assumptions C08_block_longer_than_buffer_refuted.
