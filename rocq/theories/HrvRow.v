(* C43: one operation of hos_reverse, rows.                                  *)
From Coq Require Import List ZArith Bool Arith Lia Reals Lra FunctionalExtensionality.
From Coquelicot Require Import Coquelicot.
Require Import Verif.AdModel Verif.AdRecord Verif.AdSpec Verif.AdReplay Verif.AdRestore
  Verif.AdReal Verif.AdLin Verif.AdReverse Verif.AdTidy Verif.AdDeriv Verif.AdTangent
  Verif.HosModel Verif.HosSpec Verif.HosTay Verif.HosFun Verif.HosLoops Verif.HosProofs
  Verif.HrvModel Verif.HrvLoops Verif.HrvOp.
Import ListNotations.
Set Implicit Arguments.
Unset Asymmetric Patterns.
Local Open Scope R_scope.

(* the adjoint row of res is taken out and distributed: power series products *)
Definition rscat (a : nat -> R) (ts : list ((nat -> R) * nat)) (A : rrows) : rrows :=
  fold_left (fun (A : rrows) (t : (nat -> R) * nat) =>
     fun l i => if (l =? snd t)%nat then A l i + conv (fst t) a i else A l i) ts A.
Definition adjrow (res : nat) (ts : list ((nat -> R) * nat)) (A : rrows) : rrows :=
  rscat (A res) ts (fun l i => if (l =? res)%nat then 0 else A l i).

(* R, R': rows before and after the operation *)
Definition rterms (k : nat) (b : bop reals) (R0 R1 : rrows) : option (nat * list ((nat -> R) * nat)) :=
  match b with
  | AssignA _ arg res => Some (res, [(cst 1, arg)])
  | AssignD _ res _ | AssignP _ _ res | AssignD0 _ res | AssignD1 _ res => Some (res, [])
  | EqPlusA _ arg res => Some (res, [(cst 1, res); (cst 1, arg)])
  | EqMinA _ arg res => Some (res, [(cst 1, res); (cst (-1), arg)])
  | EqMultD _ res c => Some (res, [(cst c, res)])
  | EqMultA _ arg res => Some (res, [(R0 arg, res); (R0 res, arg)])
  | PlusAA _ a1 a2 res => Some (res, [(cst 1, a1); (cst 1, a2)])
  | PlusDA _ arg res _ | PosSign _ arg res => Some (res, [(cst 1, arg)])
  | MinAA _ a1 a2 res => Some (res, [(cst 1, a1); (cst (-1), a2)])
  | MinDA _ arg res _ | NegSign _ arg res => Some (res, [(cst (-1), arg)])
  | MultAA _ a1 a2 res => Some (res, [(R0 a2, a1); (R0 a1, a2)])
  | EqPlusProd _ a1 a2 res => Some (res, [(cst 1, res); (R0 a2, a1); (R0 a1, a2)])
  | EqMinProd _ a1 a2 res => Some (res, [(cst 1, res); (fun i => - R0 a2 i, a1); (fun i => - R0 a1 i, a2)])
  | MultDA _ arg res c => Some (res, [(cst c, arg)])
  | DivAA _ a1 a2 res => Some (res, [(@recipr_ reals k 1 (R0 a2), a1);
                                     (fun i => - conv (@recipr_ reals k 1 (R0 a2)) (R1 res) i, a2)])
  | DivDA _ arg res _ => Some (res, [(fun i => - conv (@recipr_ reals k 1 (R0 arg)) (R1 res) i, arg)])
  | ExpOp _ arg res => Some (res, [(R1 res, arg)])
  | SinOp _ a1 a2 res => Some (res, [(R1 a2, a1)])
  | CosOp _ a1 a2 res => Some (res, [(fun i => - R1 a2 i, a1)])
  | HelpOp _ _ a1 a2 res => Some (res, [(R0 a2, a1)])
  | LogOp _ arg res => Some (res, [(@recipr_ reals k 1 (R0 arg), arg)])
  | PowOp _ arg res c => Some (res, [(fun i => @divide_ reals k (R1 res) (R0 arg) i * c, arg)])
  | SqrtOp _ arg res => Some (res, [(@recipr_ reals k (/ 2) (R1 res), arg)])
  | MinOp _ a1 a2 res _ => Some (res, [(cst 1, if Rltb (R0 a2 0%nat) (R0 a1 0%nat) then a2 else a1)])
  | AbsVal _ arg res _ => Some (res, [(cst (if Rltb (R0 arg 0%nat) 0 then -1 else 1), arg)])
  | CondAssign _ arg a1 a2 res _ => Some (res, [(cst 1, if Rltb 0 (R0 arg 0%nat) then a1 else a2)])
  | CondEqAssign _ arg a1 a2 res _ => Some (res, [(cst 1, if Rleb 0 (R0 arg 0%nat) then a1 else a2)])
  | CondAssignS _ arg a1 res _ => Some (res, [(cst 1, if Rltb 0 (R0 arg 0%nat) then a1 else res)])
  | CondEqAssignS _ arg a1 res _ => Some (res, [(cst 1, if Rleb 0 (R0 arg 0%nat) then a1 else res)])
  | VecDot _ a1 a2 n res =>
      Some (res, (cst 1, res) :: flat_map (fun q => [(R0 (a1 + q)%nat, (a2 + q)%nat); (R0 (a2 + q)%nat, (a1 + q)%nat)]) (seq 0 n))
  | _ => None
  end.

(* operations hos_reverse differentiates: no ceil, floor, cbrt; powers away from zero *)
Definition rok (eps : R) (b : bop reals) (T : rmem) : Prop :=
  match b with
  | CbrtOp _ _ _ | CeilOp _ _ _ _ | FloorOp _ _ _ _ => False
  | PowOp _ arg _ _ => eps < Rabs (T arg)
  | _ => True
  end.

Definition jr (T : rmem) (C : rrows) : rrows := fun l => joined (T l) (C l).

(* flags *)
Definition flags_ok (N : nat) (F F1 : rmem) (res : nat) (args : list nat) : Prop :=
  (forall l, (l < N)%nat -> 0 <= F1 l) /\ (forall l, In l args -> 0 < F1 l) /\
  (forall l, l <> res -> ~ In l args -> F1 l = F l).
Definition rstep_ok (N k : nat) (F : rmem) (A : rrows) (res : nat) (ts : list ((nat -> R) * nat)) (F1 : rmem) (A1 : rrows) : Prop :=
  (F res = 0 /\ F1 = F /\ A1 = A) \/
  ((forall l i, (i < k)%nat -> A1 l i = adjrow res ts A l i) /\ flags_ok N F F1 res (map snd ts)).

Lemma maxdec_val (F : rmem) l v l' : @maxdec reals F l v l' = if (l' =? l)%nat then Rmax (F l) v else F l'.
Proof.
  unfold maxdec. cbn [ltb reals]. unfold Rltb, Rmax. destruct (Rlt_dec (F l) v), (Rle_dec (F l) v); try lra.
  - unfold upd. destruct (l' =? l)%nat; auto.
  - destruct (Nat.eqb_spec l' l); subst; auto. lra.
  - destruct (Nat.eqb_spec l' l); subst; auto.
Qed.
Lemma comp2_ge v : 0 < @comp2 reals v.
Proof. unfold comp2. cbn [ltb two reals]. unfold Rltb. destruct (Rlt_dec _ _); lra. Qed.
Lemma Rmax_pos_l a b : 0 < a -> 0 < Rmax a b.
Proof. intros. eapply Rlt_le_trans; [exact H|apply Rmax_l]. Qed.
Lemma Rmax_pos_r a b : 0 < b -> 0 < Rmax a b.
Proof. intros. eapply Rlt_le_trans; [exact H|apply Rmax_r]. Qed.
Lemma Rmax_nn_l a b : 0 <= a -> 0 <= Rmax a b.
Proof. intros. eapply Rle_trans; [exact H|apply Rmax_l]. Qed.

Lemma conv_row k (a b b' : nat -> R) i : (i < k)%nat -> (forall j, (j < k)%nat -> b j = b' j) -> conv a b i = conv b' a i.
Proof. intros Hi H. rewrite conv_comm. apply conv_ext; auto. intros; apply H; lia. Qed.

Lemma rscat_ext k (a a' : nat -> R) ts : (forall i, (i < k)%nat -> a i = a' i) ->
  forall B B' : rrows, (forall l i, (i < k)%nat -> B l i = B' l i) ->
  forall l i, (i < k)%nat -> rscat a ts B l i = rscat a' ts B' l i.
Proof.
  intros Ha. induction ts as [|[w r] ts IH]; intros B B' H l i Hi; auto.
  unfold rscat. cbn [fold_left fst snd]. apply IH; auto. intros l0 i0 H0. rewrite (H l0 i0 H0).
  destruct (l0 =? r)%nat; auto. f_equal. apply conv_ext; auto. intros; apply Ha; lia.
Qed.

Ltac ltk Hi := match type of Hi with (?i < ?k)%nat => replace (i <? k)%nat with true by (symmetry; apply Nat.ltb_lt; lia) end; rewrite ?andb_true_r.
Section Row.
Variables (eps : R) (N d : nat).
Let k := S d.

Lemma taken_jr (T : rmem) (C : rrows) l : @taken reals k T C l = map (jr T C l) (seq 0 k).
Proof. reflexivity. Qed.
Lemma get_jr (Tr : rrows) (T : rmem) (C : rrows) res st : exists T1, @gettayl reals k res Tr (rev (@taken reals k T C res) ++ st) = (T1, st) /\
  forall l i, T1 l i = if (l =? res)%nat && (i <? k)%nat then jr T C res i else Tr l i.
Proof.
  pose proof (@gettayl_spec k res Tr (jr T C res) st) as G. rewrite taken_jr.
  destruct (gettayl _ _ _ _) as [T1 st']. destruct G as [-> G]. eauto.
Qed.

Variables (ps x : nat -> R) (xc : rrows) (n : nat) (b : bop reals) (T : rmem) (C : rrows).
Let T' := @zval reals ps x n b T.
Let C' := @hval reals d ps x xc n b T C.
Let R0 := jr T C.
Let R1 := jr T' C'.

Lemma R_frame l i : ~ In l (bwrites b) -> R1 l i = R0 l i.
Proof.
  intros H. unfold R1, R0, jr. destruct i; cbn [joined].
  - now apply (@zval_frame reals).
  - now apply hval_frame.
Qed.
Lemma restored (Tr T1 : rrows) res : rsame N k Tr R1 -> bwrites b = [res] ->
  (forall l i, T1 l i = if (l =? res)%nat && (i <? k)%nat then jr T C res i else Tr l i) -> rsame N k T1 R0.
Proof.
  intros S Hw H l i Hl Hi. rewrite H. destruct (Nat.eqb_spec l res) as [->|Ne]; cbn [andb].
  - replace (i <? k)%nat with true by (symmetry; apply Nat.ltb_lt; lia). reflexivity.
  - rewrite S by auto. apply R_frame. rewrite Hw. cbn. intuition congruence.
Qed.
Lemma eq_prod_add a1 a2 res : b = EqPlusProd reals a1 a2 res -> a1 <> res -> a2 <> res -> forall i, (i < k)%nat ->
  R1 res i = R0 res i + conv (R0 a1) (R0 a2) i.
Proof.
  intros Hb N1 N2 i Hi. unfold R1, R0, jr, T', C'. rewrite Hb. cbn [zval hval].
  destruct i as [|i]; cbn [joined].
  - rewrite (@upd_eq reals). unfold conv. cbn. ring.
  - change (add reals) with Rplus.
    destruct (@prow_add d res a1 a2 (fun i C => C res i + @lin reals (T a1) (T a2) a1 a2 i C) C) as (_ & _ & E).
    { intros i0 C1 H0 E. unfold lin. now rewrite !E. }
    rewrite E by (unfold k in Hi; lia). rewrite conv_joined. unfold lin. cbn. ring.
Qed.
Lemma eq_prod_sub a1 a2 res : b = EqMinProd reals a1 a2 res -> a1 <> res -> a2 <> res -> forall i, (i < k)%nat ->
  R1 res i = R0 res i - conv (R0 a1) (R0 a2) i.
Proof.
  intros Hb N1 N2 i Hi. unfold R1, R0, jr, T', C'. rewrite Hb. cbn [zval hval].
  destruct i as [|i]; cbn [joined].
  - rewrite (@upd_eq reals). unfold conv. cbn. ring.
  - change (sub reals) with Rminus.
    destruct (@prow_sub d res a1 a2 (fun i C => C res i - @lin reals (T a1) (T a2) a1 a2 i C) C) as (_ & _ & E).
    { intros i0 C1 H0 E. unfold lin. now rewrite !E. }
    rewrite E by (unfold k in Hi; lia). rewrite conv_joined. unfold lin. cbn. ring.
Qed.
Lemma R_conv a1 a2 i : ~ In a1 (bwrites b) -> ~ In a2 (bwrites b) -> conv (R1 a1) (R1 a2) i = conv (R0 a1) (R0 a2) i.
Proof. intros. apply conv_ext; intros; apply R_frame; auto. Qed.
Lemma back_add (Tr : rrows) a1 a2 res : b = EqPlusProd reals a1 a2 res -> a1 <> res -> a2 <> res ->
  (a1 < N)%nat -> (a2 < N)%nat -> rsame N k Tr R1 ->
  rsame N k (@inconv_ reals (sub reals) k (fun T => T a1) (fun T => T a2) res Tr) R0.
Proof.
  intros Hb N1 N2 L1 L2 S l i Hl Hi. rewrite inconv_spec; [|intros; auto|intros; auto]. ltk Hi.
  assert (W : bwrites b = [res]) by now rewrite Hb.
  destruct (Nat.eqb_spec l res) as [->|Nl].
  - rewrite S by auto. rewrite (@eq_prod_add a1 a2 res Hb) by auto. cbn [sub reals].
    rewrite (@conv_ext (Tr a1) (R1 a1) (Tr a2) (R1 a2)) by (intros; apply S; auto; lia).
    rewrite R_conv by (rewrite W; cbn; intuition congruence). ring.
  - rewrite S by auto. apply R_frame. rewrite W. cbn; intuition congruence.
Qed.
Lemma back_sub (Tr : rrows) a1 a2 res : b = EqMinProd reals a1 a2 res -> a1 <> res -> a2 <> res ->
  (a1 < N)%nat -> (a2 < N)%nat -> rsame N k Tr R1 ->
  rsame N k (@inconv_ reals (add reals) k (fun T => T a1) (fun T => T a2) res Tr) R0.
Proof.
  intros Hb N1 N2 L1 L2 S l i Hl Hi. rewrite inconv_spec; [|intros; auto|intros; auto]. ltk Hi.
  assert (W : bwrites b = [res]) by now rewrite Hb.
  destruct (Nat.eqb_spec l res) as [->|Nl].
  - rewrite S by auto. rewrite (@eq_prod_sub a1 a2 res Hb) by auto. cbn [add reals].
    rewrite (@conv_ext (Tr a1) (R1 a1) (Tr a2) (R1 a2)) by (intros; apply S; auto; lia).
    rewrite R_conv by (rewrite W; cbn; intuition congruence). ring.
  - rewrite S by auto. apply R_frame. rewrite W. cbn; intuition congruence.
Qed.
End Row.

Lemma dot_row N k n : forall a1 a2 res q (T0 T : rrows) (F : rmem) (A : rrows) F1 A1, (res < N)%nat ->
  (forall j, (q <= j < q + n)%nat -> (a1 + j <> res /\ a2 + j <> res /\ a1 + j < N /\ a2 + j < N)%nat) ->
  rsame N k T T0 ->
  @hrdot reals k n a1 a2 res q T F A = (F1, A1) ->
  (F res = 0 -> F1 = F /\ A1 = A) /\
  (0 < F res -> (forall l, (l < N)%nat -> 0 <= F l) ->
    (forall l i, (i < k)%nat -> A1 l i =
      rscat (A res) (flat_map (fun q => [(T0 (a1 + q)%nat, (a2 + q)%nat); (T0 (a2 + q)%nat, (a1 + q)%nat)]) (seq q n)) A l i) /\
    0 < F1 res /\ (forall l, (l < N)%nat -> 0 <= F1 l) /\
    (forall l, 0 < F l -> 0 < F1 l) /\
    (forall l, In l (map snd (flat_map (fun q => [(T0 (a1 + q)%nat, (a2 + q)%nat); (T0 (a2 + q)%nat, (a1 + q)%nat)]) (seq q n))) -> 0 < F1 l) /\
    (forall l, l <> res -> ~ In l (map snd (flat_map (fun q => [(T0 (a1 + q)%nat, (a2 + q)%nat); (T0 (a2 + q)%nat, (a1 + q)%nat)]) (seq q n))) -> F1 l = F l)).
Proof.
  induction n as [|n IH]; intros a1 a2 res q T0 T F A F1 A1 Hr H S E; cbn [hrdot] in E.
  - injection E as <- <-. split; [auto|]. intros P NN. cbn. repeat split; auto. intros l [].
  - cbn [eqb zero reals] in E. unfold Reqb in E. destruct (Req_EM_T (F res) 0) as [Z|Z].
    + destruct (IH a1 a2 res (Datatypes.S q) T0 T F A F1 A1 Hr) as [P _]; auto.
      { intros j Hj. apply H. lia. }
      split; [auto|]. intros; lra.
    + destruct (H q ltac:(lia)) as (N1 & N2 & L1 & L2).
      set (comp := @comp2 reals (F res)) in *. pose proof (comp2_ge (F res)) as CP. fold comp in CP.
      match type of E with @hrdot _ _ _ _ _ _ _ _ ?Fm ?Am = _ => set (F2 := Fm) in *; set (A2 := Am) in * end.
      destruct (IH a1 a2 res (Datatypes.S q) T0 T F2 A2 F1 A1 Hr) as [_ P]; auto.
      { intros j Hj. apply H. lia. }
      split; [lra|]. intros P0 NN.
      assert (F2v : forall l, F2 l = if (l =? a2 + q)%nat then Rmax (if (a2 + q =? a1 + q)%nat then Rmax (F (a1 + q)%nat) comp else F (a2 + q)%nat) comp
                 else if (l =? a1 + q)%nat then Rmax (F (a1 + q)%nat) comp else if (l =? res)%nat then comp else F l).
      { intros l. unfold F2. rewrite !maxdec_val. unfold upd.
        repeat match goal with |- context [(?e1 =? ?e2)%nat] => destruct (Nat.eqb_spec e1 e2); subst; try congruence; try lia end; auto. }
      assert (F2p : forall l, 0 < F l -> 0 < F2 l).
      { intros l Hl. rewrite F2v. repeat match goal with |- context [if ?e then _ else _] => destruct e end; auto using Rmax_pos_r. }
      destruct P as (P1 & P2 & P3 & P4 & P5 & P6).
      { rewrite F2v. repeat match goal with |- context [if ?e then _ else _] => destruct e end; auto using Rmax_pos_r. }
      { intros l Hl. rewrite F2v. repeat match goal with |- context [if ?e then _ else _] => destruct e end;
          try (apply Rlt_le; auto using Rmax_pos_r; fail); auto. }
      assert (A2v : forall l i, (i < k)%nat -> A2 l i =
        rscat (A res) [(T0 (a1 + q)%nat, (a2 + q)%nat); (T0 (a2 + q)%nat, (a1 + q)%nat)] A l i).
      { intros l i Hi. unfold A2, rscat. cbn [fold_left fst snd].
        rewrite inconv_spec; [|intros; auto|intros; auto]. cbn [add reals].
        rewrite !inconv_spec; [|intros; auto|intros; auto|intros; auto|intros; auto]. cbn [add reals].
        replace (i <? k)%nat with true by (symmetry; apply Nat.ltb_lt; lia). rewrite !andb_true_r.
        assert (Er : forall j, @inconv_ reals Rplus k (fun A => A res) (fun _ => T (a1 + q)%nat) (a2 + q) A res j = A res j).
        { intros j. rewrite inconv_spec; [|intros; auto|intros; auto]. replace (res =? a2 + q)%nat with false; auto.
          symmetry. apply Nat.eqb_neq. lia. }
        rewrite (@conv_ext (@inconv_ reals Rplus k (fun A => A res) (fun _ => T (a1 + q)%nat) (a2 + q) A res) (A res)
          (T (a2 + q)%nat) (T (a2 + q)%nat) i) by auto.
        rewrite (@conv_row k (A res) (T (a2 + q)%nat) (T0 (a2 + q)%nat)) by (auto; intros; apply S; auto).
        rewrite (@conv_row k (A res) (T (a1 + q)%nat) (T0 (a1 + q)%nat)) by (auto; intros; apply S; auto).
        destruct (Nat.eqb_spec l (a1 + q)) as [->|]; [destruct (Nat.eqb_spec (a1 + q) (a2 + q)) as [e|]; rewrite ?e; auto|].
        destruct (Nat.eqb_spec l (a2 + q)) as [->|]; auto. }
      assert (A2r : forall i, (i < k)%nat -> A2 res i = A res i).
      { intros i Hi. rewrite A2v by auto. unfold rscat. cbn [fold_left fst snd].
        repeat match goal with |- context [(?e1 =? ?e2)%nat] => destruct (Nat.eqb_spec e1 e2); try lia end. reflexivity. }
      repeat split; auto.
      * intros l i Hi. rewrite P1 by auto. cbn [seq flat_map app].
        unfold rscat at 2. cbn [fold_left]. apply (@rscat_ext k); auto.
      * intros l Hl. cbn [seq flat_map app map snd In] in Hl.
        destruct Hl as [<-|[<-|Hl]]; [apply P4|apply P4|apply P5; exact Hl];
        rewrite F2v; repeat match goal with |- context [(?e1 =? ?e2)%nat] => destruct (Nat.eqb_spec e1 e2); subst; try lia end; auto using Rmax_pos_r.
      * intros l Hl Hn. cbn [seq flat_map app map snd In] in Hn. rewrite P6 by (auto; tauto).
        rewrite F2v. repeat match goal with |- context [(?e1 =? ?e2)%nat] => destruct (Nat.eqb_spec e1 e2); subst; try tauto end.
Qed.

(* ------------------------------------------------------------------ *)
Lemma four_pos : 0 < @four reals.
Proof. unfold four. cbn. lra. Qed.
Lemma five_pos : 0 < @five reals.
Proof. unfold five. cbn. lra. Qed.
Ltac pos := first [assumption | apply comp2_ge | apply four_pos | apply five_pos | lra
  | apply Rmax_pos_r; pos | apply Rmax_pos_l; pos | match goal with H : _ |- 0 < _ => apply H; auto; fail end].
Ltac nn := first [assumption | lra | apply Rlt_le; pos | apply Rmax_nn_l; nn | match goal with H : _ |- 0 <= _ => apply H; auto; fail end].
Ltac natcases := repeat match goal with
  | |- context [(?e1 =? ?e2)%nat] => destruct (Nat.eqb_spec e1 e2); subst; try congruence; try lia end.
Ltac flg := unfold fl1, fl2; split; [|split]; cbn [map snd In]; intros;
  repeat match goal with H : _ \/ _ |- _ => destruct H; subst | H : False |- _ => destruct H end;
  rewrite ?maxdec_val; unfold upd; rewrite ?maxdec_val; unfold upd; cbn [zero reals two three];
  natcases; first [nn | pos | tauto | idtac].

Ltac rowsp := first
  [ rewrite mv0_spec | rewrite mv1_spec | rewrite mv2_spec | rewrite zerorow_spec | rewrite inconv0_spec
  | rewrite inconv_spec; [|intros; auto; fail|intros; auto; fail]
  | rewrite uprow_spec; [|intros; cbn [add sub mul reals]; congruence] ].

Section Op.
Variables (eps : R) (N d : nat).
Let k := S d.
Variables (ps x : nat -> R) (xc : rrows) (n : nat).

Ltac convs Hi S := repeat match goal with
  | |- context [conv (?A ?r) (?X ?a) ?i] =>
      match type of X with rrows => idtac | rows reals => idtac end;
      match goal with |- context [adjrow] => idtac | _ => idtac end;
      rewrite (@conv_row k (A r) (X a) (_ a) i Hi) by (intros; apply S; [|assumption]; auto)
  end.

Lemma hr_op b D W D' W' (T : rmem) (C : rrows) (Tr : rrows) (F : rmem) (A : rrows) st :
  let T' := @zval reals ps x n b T in
  let C' := @hval reals d ps x xc n b T C in
  let R0 := jr T C in let R1 := jr T' C' in
  tidy_op N b D W = Some (D', W') -> rok eps b T -> smooth b T T' ->
  rsame N k Tr R1 -> (forall l, (l < N)%nat -> 0 <= F l) ->
  exists T1 F1 A1, @hrval reals eps k b Tr F A (rev (@hpushes reals k b T C) ++ st) = Some (T1, F1, A1, st) /\
    rsame N k T1 R0 /\
    match rterms k b R0 R1 with
    | Some (res, ts) => rstep_ok N k F A res ts F1 A1
    | None => F1 = F /\ A1 = A
    end.
Proof.
  cbv zeta. intros Ti Rk Sm Sr HF.
  pose proof (tidy_locs _ _ _ _ Ti) as B.
  set (R0 := jr T C). set (R1 := jr (@zval reals ps x n b T) (@hval reals d ps x xc n b T C)) in *.
  assert (GET : forall res, exists T1, @gettayl reals k res Tr (rev (@taken reals k T C res) ++ st) = (T1, st) /\
      (bwrites b = [res] -> rsame N k T1 R0) /\ (forall l i, l <> res -> T1 l i = Tr l i)).
  { intros res. destruct (@get_jr d Tr T C res st) as (T1 & G & GT). exists T1. split; [exact G|]. split.
    - intros Hw. eapply restored; eauto.
    - intros l i H. rewrite GT. apply Nat.eqb_neq in H. now rewrite H. }
  unfold tidy_op in Ti.
  destruct (below N (breads b ++ bwrites b ++ extra b) && forallb D (breads b))%bool; [|discriminate].
  destruct b; try discriminate Ti; cbn [rok] in Rk; try contradiction; cbn [smooth] in Sm; try contradiction;
    cbn [hpushes hrval rev app].
  (* nothing to do *)
  all: try (exists Tr, F, A; split; [reflexivity|]; split; [exact Sr|cbn [rterms]; auto]; fail).
  all: try (destruct (GET res) as (T1 & G & GT & GO); rewrite G; specialize (GT eq_refl);
            exists T1, F, A; split; [reflexivity|]; split; [exact GT|cbn [rterms]; auto]; fail).
  (* one result *)
  all: try (destruct (GET res) as (T1 & G & GT & GO); rewrite G; specialize (GT eq_refl)).
  all: try (assert (Hres : (res < N)%nat) by (apply B; apply in_or_app; right; cbn; auto; fail)).
  all: cbn [eqb zero reals]; unfold Reqb.
  (* the flag of the result is zero *)
  all: try (destruct (Req_EM_T (F res) 0) as [Z|Z];
    [ eexists _, F, A; split; [reflexivity|]; split; [exact GT|cbn [rterms]; left; auto; fail] | ]).
  all: try (assert (P : 0 < F res) by (pose proof (HF _ Hres); lra)).
  all: try (eexists _, _, _; split; [reflexivity|]; split; [exact GT|]; cbn [rterms]; right; split; [|flg; fail]).
  (* rows *)
  all: try (intros l i Hi; unfold adjrow, rscat; cbn [fold_left fst snd]; repeat rowsp;
    replace (i <? k)%nat with true by (symmetry; apply Nat.ltb_lt; lia);
    rewrite ?andb_true_r; cbn [add sub mul neg reals]; rewrite ?conv_cst; cbv zeta; natcases; ring).
  all: try (assert (Ha1 : (a1 < N)%nat) by (apply B; cbn; auto; fail)).
  all: try (assert (Ha2 : (a2 < N)%nat) by (apply B; cbn; auto 10; fail)).
  all: try (assert (Harg : (arg < N)%nat) by (apply B; cbn; auto; fail)).
  all: try (assert (GS : forall a (g0 : nat -> R) i, (a < N)%nat -> (i < k)%nat -> conv g0 (T1 a) i = conv (R0 a) g0 i)
    by (intros a g0 i Ha Hi; apply (@conv_row k); auto; fail)).
  all: try (assert (RS : forall a (g0 : nat -> R) i, (a < N)%nat -> (i < k)%nat -> conv g0 (Tr a) i = conv (R1 a) g0 i)
    by (intros a g0 i Ha Hi; apply (@conv_row k); auto; fail)).
  all: try (intros l i Hi; unfold adjrow, rscat; cbn [fold_left fst snd]).
  1: { (* assign_a *)
    destruct (Nat.eqb_spec arg res) as [->|Ne]; [cbn [shape negb] in Ti; rewrite Nat.eqb_refl in Ti; discriminate|].
    eexists _, _, _; split; [reflexivity|]; split; [exact GT|]; cbn [rterms]; right; split; [|flg].
    intros l i Hi; unfold adjrow, rscat; cbn [fold_left fst snd]; repeat rowsp.
    replace (i <? k)%nat with true by (symmetry; apply Nat.ltb_lt; lia). rewrite ?conv_cst. natcases; ring. }
  all: assert (HK : (0 < k)%nat) by (unfold k; lia).
  1: { (* eq_mult_a *)
    cbn [add sub mul two reals].
    destruct (Nat.eqb_spec arg res) as [->|Ne].
    - rowsp. ltk Hi. unfold conv_. rewrite mulsum_conv, GS by auto. natcases; ring.
    - rowsp. unfold conv_. rewrite mulsum_conv, GS by auto. rowsp. cbn [add reals]. rewrite GS by auto. ltk Hi. natcases; ring. }
  1: { (* mult_aa *)
    repeat rowsp. cbn [add reals]. rewrite !GS by auto. ltk Hi. natcases; ring. }
  1: { (* eq_plus_prod *)
    cbn [shape negb] in Ti. destruct (Nat.eqb_spec a1 res) as [|N1]; [discriminate|].
    destruct (Nat.eqb_spec a2 res) as [|N2]; [discriminate|]. clear Ti.
    pose proof (@back_add N d ps x xc n _ T C Tr a1 a2 res eq_refl N1 N2 Ha1 Ha2 Sr) as GT.
    fold R0 in GT. fold k in GT.
    set (T1 := @inconv_ reals (sub reals) k (fun T => T a1) (fun T => T a2) res Tr) in *.
    destruct (Req_EM_T (F res) 0) as [Z|Z]; [ eexists _, F, A; split; [reflexivity|]; split; [exact GT|cbn [rterms]; left; auto; fail] | ].
    assert (P : 0 < F res) by (pose proof (HF _ Hres); lra).
    eexists _, _, _; split; [reflexivity|]; split; [exact GT|]; cbn [rterms]; right; split; [|flg].
    intros l i Hi; unfold adjrow, rscat; cbn [fold_left fst snd].
    assert (Er : @inconv_ reals (add reals) k (fun A => A res) (fun _ => T1 a1) a2 A res = A res).
    { apply functional_extensionality. intros j. rewrite inconv_spec; [|intros; auto|intros; auto].
      replace (res =? a2)%nat with false; auto. symmetry. apply Nat.eqb_neq. congruence. }
    rewrite inconv_spec; [|intros; auto|intros; auto]. rewrite Er.
    rewrite !inconv_spec; [|intros; auto|intros; auto|intros; auto|intros; auto]. cbn [add sub reals].
    rewrite (@conv_row k (A res) (T1 a2) (R0 a2)) by (auto; intros; apply GT; auto).
    rewrite (@conv_row k (A res) (T1 a1) (R0 a1)) by (auto; intros; apply GT; auto).
    rewrite ?conv_cst, ?conv_opp. ltk Hi. natcases; ring. }
  1: { (* eq_min_prod *)
    cbn [shape negb] in Ti. destruct (Nat.eqb_spec a1 res) as [|N1]; [discriminate|].
    destruct (Nat.eqb_spec a2 res) as [|N2]; [discriminate|]. clear Ti.
    pose proof (@back_sub N d ps x xc n _ T C Tr a1 a2 res eq_refl N1 N2 Ha1 Ha2 Sr) as GT.
    fold R0 in GT. fold k in GT.
    set (T1 := @inconv_ reals (add reals) k (fun T => T a1) (fun T => T a2) res Tr) in *.
    destruct (Req_EM_T (F res) 0) as [Z|Z]; [ eexists _, F, A; split; [reflexivity|]; split; [exact GT|cbn [rterms]; left; auto; fail] | ].
    assert (P : 0 < F res) by (pose proof (HF _ Hres); lra).
    eexists _, _, _; split; [reflexivity|]; split; [exact GT|]; cbn [rterms]; right; split; [|flg].
    intros l i Hi; unfold adjrow, rscat; cbn [fold_left fst snd].
    assert (Er : @inconv_ reals (sub reals) k (fun A => A res) (fun _ => T1 a1) a2 A res = A res).
    { apply functional_extensionality. intros j. rewrite inconv_spec; [|intros; auto|intros; auto].
      replace (res =? a2)%nat with false; auto. symmetry. apply Nat.eqb_neq. congruence. }
    rewrite inconv_spec; [|intros; auto|intros; auto]. rewrite Er.
    rewrite !inconv_spec; [|intros; auto|intros; auto|intros; auto|intros; auto]. cbn [add sub reals].
    rewrite (@conv_row k (A res) (T1 a2) (R0 a2)) by (auto; intros; apply GT; auto).
    rewrite (@conv_row k (A res) (T1 a1) (R0 a1)) by (auto; intros; apply GT; auto).
    rewrite ?conv_cst, ?conv_opp. ltk Hi. natcases; ring. }
  1: { (* div_a_a *)
    assert (E2 : forall i, (i < k)%nat -> (if (a2 =? res)%nat then T1 a2 else Tr a2) i = R0 a2 i).
    { intros j Hj. destruct (Nat.eqb_spec a2 res) as [e|Ne]; [apply GT; auto|].
      rewrite <- GO by auto. apply GT; auto. }
    rewrite (@recipr_ext k (one reals) _ (R0 a2) HK E2). change (one reals) with 1.
    set (rt := @recipr_ reals k 1 (R0 a2)).
    assert (Ec : forall j, (j < k)%nat -> @conv_ reals rt (Tr res) j = conv rt (R1 res) j).
    { intros j Hj. unfold conv_. rewrite mulsum_conv. apply conv_ext; auto. intros; apply Sr; auto; lia. }
    repeat rowsp. cbn [add sub reals]. rewrite (@conv_row k (A res) rt rt) by auto.
    rewrite (@conv_row k (A res) _ (conv rt (R1 res))) by auto.
    rewrite conv_opp. ltk Hi. natcases; ring. }
  1: { (* div_d_a *)
    assert (E2 : forall i, (i < k)%nat -> (if (arg =? res)%nat then T1 arg else Tr arg) i = R0 arg i).
    { intros j Hj. destruct (Nat.eqb_spec arg res) as [e|Ne]; [apply GT; auto|].
      rewrite <- GO by auto. apply GT; auto. }
    rewrite (@recipr_ext k (one reals) _ (R0 arg) HK E2). change (one reals) with 1.
    set (rt := @recipr_ reals k 1 (R0 arg)).
    assert (Ec : forall j, (j < k)%nat -> @conv_ reals rt (Tr res) j = conv rt (R1 res) j).
    { intros j Hj. unfold conv_. rewrite mulsum_conv. apply conv_ext; auto. intros; apply Sr; auto; lia. }
    repeat rowsp. cbn [add sub reals].
    rewrite (@conv_row k (A res) _ (conv rt (R1 res))) by auto.
    rewrite conv_opp. ltk Hi. natcases; ring. }
  1: { (* exp *) repeat rowsp. cbn [add sub reals]. rewrite RS by auto. ltk Hi. natcases; ring. }
  1, 2: (destruct (Nat.eqb_spec a2 res) as [|N1]; [discriminate|]; destruct (Nat.eqb_spec a2 a1) as [|N2]; [discriminate|]).
  1: { (* sin *)
    rewrite rev_app_distr, <- app_assoc.
    destruct (@get_jr d Tr T C res (rev (@taken reals k T C a2) ++ st)) as (T1 & G1 & GT1). fold k in G1, GT1. rewrite G1.
    destruct (@get_jr d T1 T C a2 st) as (T2 & G2 & GT2). fold k in G2, GT2. rewrite G2.
    assert (GT : rsame N k T2 R0).
    { intros l i Hl Hi. rewrite GT2, GT1. ltk Hi.
      destruct (Nat.eqb_spec l a2) as [->|M1]; [reflexivity|]. destruct (Nat.eqb_spec l res) as [->|M2]; [reflexivity|].
      rewrite Sr by auto. apply R_frame. cbn. intuition congruence. }
    destruct (Req_EM_T (F res) 0) as [Z|Z]; [ eexists _, F, A; split; [reflexivity|]; split; [exact GT|cbn [rterms]; left; auto; fail] | ].
    assert (P : 0 < F res) by (pose proof (HF _ Hres); lra).
    eexists _, _, _; split; [reflexivity|]; split; [exact GT|]; cbn [rterms]; right; split; [|flg].
    intros l i Hi; unfold adjrow, rscat; cbn [fold_left fst snd].
    repeat rowsp. cbn [add sub reals]. rewrite RS, ?conv_opp by auto. ltk Hi. natcases; ring. }
  1: { (* cos *)
    rewrite rev_app_distr, <- app_assoc.
    destruct (@get_jr d Tr T C res (rev (@taken reals k T C a2) ++ st)) as (T1 & G1 & GT1). fold k in G1, GT1. rewrite G1.
    destruct (@get_jr d T1 T C a2 st) as (T2 & G2 & GT2). fold k in G2, GT2. rewrite G2.
    assert (GT : rsame N k T2 R0).
    { intros l i Hl Hi. rewrite GT2, GT1. ltk Hi.
      destruct (Nat.eqb_spec l a2) as [->|M1]; [reflexivity|]. destruct (Nat.eqb_spec l res) as [->|M2]; [reflexivity|].
      rewrite Sr by auto. apply R_frame. cbn. intuition congruence. }
    destruct (Req_EM_T (F res) 0) as [Z|Z]; [ eexists _, F, A; split; [reflexivity|]; split; [exact GT|cbn [rterms]; left; auto; fail] | ].
    assert (P : 0 < F res) by (pose proof (HF _ Hres); lra).
    eexists _, _, _; split; [reflexivity|]; split; [exact GT|]; cbn [rterms]; right; split; [|flg].
    intros l i Hi; unfold adjrow, rscat; cbn [fold_left fst snd].
    repeat rowsp. cbn [add sub reals]. rewrite RS, ?conv_opp by auto. ltk Hi. natcases; ring. }
  1: { (* gen *) repeat rowsp. cbn [add sub reals]. rewrite GS by auto. ltk Hi. natcases; ring. }
  1: { (* log *) rewrite (@recipr_ext k (one reals) _ (R0 arg) HK) by (intros; apply GT; auto). change (one reals) with 1.
    repeat rowsp. cbn [add sub reals]. rewrite (@conv_row k (A res) _ (@recipr_ reals k 1 (R0 arg))) by auto. ltk Hi. natcases; ring. }
  1: { (* pow *)
    assert (E2 : forall i, (i < k)%nat -> (if (arg =? res)%nat then T1 arg else Tr arg) i = R0 arg i).
    { intros j Hj. destruct (Nat.eqb_spec arg res) as [e|Ne]; [apply GT; auto|].
      rewrite <- GO by auto. apply GT; auto. }
    rewrite (E2 0%nat HK). cbn [ltb vabs reals].
    replace (Rltb eps (Rabs (R0 arg 0%nat))) with true.
    2: { symmetry. unfold Rltb. destruct (Rlt_dec _ _) as [|Q]; auto. }
    rewrite (@divide_ext k (Tr res) (R1 res) _ (R0 arg) HK) by (auto; intros; apply Sr; auto).
    repeat rowsp. cbn [add sub mul reals].
    rewrite (@conv_row k (A res) _ (fun i0 => @divide_ reals k (R1 res) (R0 arg) i0 * c)) by auto. ltk Hi. natcases; ring. }
  1: { (* sqrt *)
    rewrite (@recipr_ext k (half reals) _ (R1 res) HK) by (intros; apply Sr; auto). change (half reals) with (/ 2).
    repeat rowsp. cbn [add sub reals]. rewrite (@conv_row k (A res) _ (@recipr_ reals k (/2) (R1 res))) by auto. ltk Hi. natcases; ring. }
  1: { (* min *)
    assert (TV : forall a, (a < N)%nat -> T1 a 0%nat = T a) by (intros a Ha; rewrite GT by auto; reflexivity).
    cbn [rterms]. change (R0 a2 0%nat) with (T a2). change (R0 a1 0%nat) with (T a1).
    unfold minpick. rewrite !TV by auto. cbn [ltb reals].
    assert (SN : forall a, (a < N)%nat -> forall F2 A2, (F res <> 0 -> 0 < F res -> (forall l i, (i < k)%nat -> A2 l i = @mv1 reals k res a (add reals) A l i) /\
          flags_ok N F F2 res [a]) ->
       exists T2 F1 A1, (let (F', A') := if (if Req_EM_T (F res) 0 then true else false) then (F, A) else (F2, A2) in Some (T1, F', A', st)) = Some (T2, F1, A1, st) /\
         rsame N k T2 R0 /\ rstep_ok N k F A res [(cst 1, a)] F1 A1).
    { intros a Ha F2 A2 H. destruct (Req_EM_T (F res) 0) as [Z|Z];
        [ eexists _, F, A; split; [reflexivity|]; split; [exact GT|left; auto; fail] | ].
      assert (P : 0 < F res) by (pose proof (HF _ Hres); lra). destruct (H Z P) as [H1 H2].
      eexists _, _, _; split; [reflexivity|]; split; [exact GT|]; right; split; [|exact H2].
      intros l i Hi. rewrite H1 by auto. unfold adjrow, rscat; cbn [fold_left fst snd]. rowsp. cbn [add reals]. rewrite conv_cst. ltk Hi. natcases; ring. }
    assert (FN : forall a, (a < N)%nat -> 0 < F res -> flags_ok N F (@maxdec reals (@upd reals F res 0) a (F res)) res [a]).
    { intros a Ha P. flg. }
    unfold Rltb in *. destruct (Rlt_dec (T a2) (T a1)) as [L|L]; [apply SN; auto|].
    destruct (Rlt_dec (T a1) (T a2)) as [L'|L']; [apply SN; auto|].
    assert (a1 = a2) as <- by (destruct Sm as [Q|Q]; [exfalso; apply Q; lra|exact Q]).
    match goal with |- context [match ?e with Some _ => _ | None => _ end] => assert (Ep : e = None) end.
    { generalize (k - 1)%nat. intros m. generalize 1%nat. induction m as [|m IH]; intros q; [reflexivity|].
      destruct (Rlt_dec (T1 a1 q) (T1 a1 q)); [lra|]. apply IH. }
    rewrite Ep. apply SN; auto. intros Z P. split; [|flg].
    intros l i Hi. repeat rowsp. cbn [add dvd two reals]. ltk Hi. cbv zeta. natcases; lra. }
  1: { (* abs *)
    assert (TV : T1 arg 0%nat = T arg) by (rewrite GT by auto; reflexivity).
    cbn [rterms]. change (R0 arg 0%nat) with (T arg).
    assert (Ep : @abspick reals k arg T1 = ((if Rltb (T arg) 0 then -1 else 1), 0%nat)).
    { unfold abspick. unfold k. clear -Sm TV. induction d as [|m IH].
      - cbn [up]. cbn [eqb zero ltb neg one reals]. rewrite TV. unfold Reqb.
        destruct (Req_EM_T 0 0); [|lra]. destruct (Req_EM_T (T arg) 0); [contradiction|]. reflexivity.
      - cbn [up] in IH |- *. rewrite IH. cbn [eqb zero reals]. unfold Reqb, Rltb.
        destruct (Rlt_dec (T arg) 0); [destruct (Req_EM_T (-1) 0)|destruct (Req_EM_T 1 0)]; auto; lra. }
    rewrite Ep, TV. destruct (Req_EM_T (T arg) 0) as [Q|_]; [contradiction|].
    destruct (Req_EM_T (F res) 0) as [Z|Z]; [ eexists _, F, A; split; [reflexivity|]; split; [exact GT|left; auto; fail] | ].
    assert (P : 0 < F res) by (pose proof (HF _ Hres); lra).
    eexists _, _, _; split; [reflexivity|]; split; [exact GT|]; right; split; [|flg].
    intros l i Hi. unfold adjrow, rscat; cbn [fold_left fst snd]. rewrite conv_cst.
    set (sg := if Rltb (T arg) 0 then -1 else 1).
    change (@zerorow reals 0 res A) with A. rewrite Nat.sub_0_r. cbn [Nat.add].
    change (up k _ A) with (@mv1 reals k res arg (fun v w => v + sg * w) A). rewrite mv1_spec. ltk Hi. natcases; ring. }
  (* conditional assignments *)
  all: try (assert (TV : T1 arg 0%nat = T arg) by (rewrite GT by auto; reflexivity);
            cbn [rterms]; change (R0 arg 0%nat) with (T arg); rewrite ?TV).
  1-4: assert (SAME : 0 < F res \/ F res = 0 -> rstep_ok N k F A res [(cst 1, res)] F A);
    [ intros [P|Z]; [right|left; auto]; split;
      [intros l i Hi; unfold adjrow, rscat; cbn [fold_left fst snd]; rewrite conv_cst; natcases; ring
      |split; [exact HF|split; [intros l [<-|[]]; exact P|auto]]] | ].
  1-4: assert (PZ : 0 < F res \/ F res = 0) by (pose proof (HF _ Hres) as [?|?]; auto).
  1-4: assert (MOVE : forall a, (a < N)%nat -> res <> a -> 0 < F res -> rstep_ok N k F A res [(cst 1, a)] (@upd reals (@maxdec reals F a (F res)) res 0) (@mv0 reals k res a A));
    [ intros a Ha Ne P; right; split;
      [ intros l i Hi; unfold adjrow, rscat; cbn [fold_left fst snd]; rewrite mv0_spec, conv_cst; ltk Hi; natcases; ring
      | flg ] | ].
  all: cbn [ltb leb reals]; unfold Rltb, Rleb in *.
  1-4: repeat match goal with
     | |- context [if Rlt_dec ?u ?v then _ else _] => destruct (Rlt_dec u v)
     | |- context [if Rle_dec ?u ?v then _ else _] => destruct (Rle_dec u v)
     | H : ?t <> 0 |- context [if Req_EM_T ?t 0 then _ else _] => destruct (Req_EM_T t 0); [contradiction|]
     | |- context [if (?r =? ?v)%nat then _ else _] => destruct (Nat.eqb_spec r v) as [<-|]
     | |- context [if Req_EM_T ?t 0 then _ else _] => destruct (Req_EM_T t 0)
     end;
     (eexists _, _, _; split; [reflexivity|]; split; [exact GT|]);
     first [exact (SAME PZ) | left; auto; fail | apply MOVE; auto; destruct PZ; [assumption|contradiction]].
  (* vec_dot *)
  destruct (W res || sin res (seq a1 size ++ seq a2 size))%bool eqn:Wd; [discriminate|].
  apply orb_false_iff in Wd. destruct Wd as [_ Wd].
  assert (HJ : forall j, (0 <= j < 0 + size)%nat -> (a1 + j <> res /\ a2 + j <> res /\ a1 + j < N /\ a2 + j < N)%nat).
  { intros j Hj. assert (~ In res (seq a1 size ++ seq a2 size)) as NI.
    { now apply sin_false. }
    repeat split.
    - intros E. apply NI, in_or_app. left. apply in_seq. lia.
    - intros E. apply NI, in_or_app. right. apply in_seq. lia.
    - apply B. cbn [breads]. rewrite ?in_app_iff, ?in_seq. left. left. lia.
    - apply B. cbn [breads]. rewrite ?in_app_iff, ?in_seq. left. right. lia. }
  destruct (@hrdot reals k size a1 a2 res 0 Tr F A) as [F1 A1] eqn:Ed.
  destruct (@dot_row N k size a1 a2 res 0 R1 Tr F A F1 A1 Hres HJ Sr Ed) as [Pz Pp].
  exists T1, F1, A1. split; [reflexivity|]. split; [exact GT|]. cbn [rterms].
  destruct (Req_EM_T (F res) 0) as [Z|Z]; [left; destruct (Pz Z); auto|].
  assert (P : 0 < F res) by (pose proof (HF _ Hres); lra).
  destruct (Pp P HF) as (P1 & P2 & P3 & P4 & P5 & P6). right.
  assert (Et : flat_map (fun q => [(R1 (a1 + q)%nat, (a2 + q)%nat); (R1 (a2 + q)%nat, (a1 + q)%nat)]) (seq 0 size) =
               flat_map (fun q => [(R0 (a1 + q)%nat, (a2 + q)%nat); (R0 (a2 + q)%nat, (a1 + q)%nat)]) (seq 0 size)).
  { rewrite !flat_map_concat_map. f_equal. apply map_ext_in. intros q Hq. apply in_seq in Hq.
    destruct (HJ q Hq) as (M1 & M2 & _).
    assert (Ef : forall a, a <> res -> R1 a = R0 a).
    { intros a Ha. apply functional_extensionality. intros i. apply R_frame. cbn. intuition congruence. }
    now rewrite !Ef by auto. }
  rewrite Et in *. set (ts := flat_map _ _) in *. split.
  - intros l i Hi. rewrite P1 by auto. unfold adjrow, rscat at 2. cbn [fold_left fst snd].
    apply (@rscat_ext k); auto. intros l0 i0 H0. rewrite conv_cst. destruct (Nat.eqb_spec l0 res) as [->|]; auto. ring.
  - cbn [map snd]. split; [exact P3|]. split; [intros l [<-|Hl]; auto|]. intros l Hl Hn. apply P6; auto. intros Q. apply Hn. now right.
Qed.
End Op.
