(* C52: a flag 0 means that all adjoints are 0. *)
From Coq Require Import List ZArith Bool Arith Lia Reals Lra FunctionalExtensionality.
Require Import Verif.AdModel Verif.AdReal Verif.HosModel Verif.HosTay Verif.HosLoops Verif.HrvModel Verif.HrvLoops Verif.HrvOp Verif.HrvRow Verif.HrvTay Verif.HrvMain
  Verif.VrvModel Verif.VrvProofs Verif.VrvRun Verif.AdDeriv Verif.HvrModel Verif.HvrProps.
Import ListNotations.
Set Implicit Arguments.
Unset Asymmetric Patterns.
Local Open Scope R_scope.
Notation rrows := (HosModel.rows reals).
Notation rmem := (mem reals).

Definition quiet (k : nat) (F : rmem) (A : rrows) : Prop :=
  forall l, 0 <= F l /\ (F l = 0 -> forall i, (i < k)%nat -> A l i = 0).

Lemma comp2_ge v : v <= @comp2 reals v /\ 2 <= @comp2 reals v.
Proof. unfold comp2. cbn [ltb two reals]. unfold Rltb. destruct (Rlt_dec _ v); cbn [two reals] in *; lra. Qed.
Lemma maxp_l a b : 0 < a -> 0 < Rmax a b.
Proof. pose proof (Rmax_l a b). lra. Qed.
Lemma maxp_r a b : 0 < b -> 0 < Rmax a b.
Proof. pose proof (Rmax_r a b). lra. Qed.
Lemma maxn_l a b : 0 <= a -> 0 <= Rmax a b.
Proof. pose proof (Rmax_l a b). lra. Qed.
Lemma quiet_touch k (F F' : rmem) (A A' : rrows) : quiet k F A ->
  (forall l, 0 < F' l \/ (0 <= F' l /\ forall i, (i < k)%nat -> A' l i = 0)
     \/ (F' l = F l /\ forall i, (i < k)%nat -> A' l i = A l i)) -> quiet k F' A'.
Proof.
  intros Q H l. destruct (Q l) as [Q1 Q2]. destruct (H l) as [P|[[P Zr]|[P E]]].
  - split; [lra|]. lra.
  - split; auto.
  - rewrite P. split; [lra|]. intros Z i Hi. rewrite E; auto.
Qed.
Lemma four_pos : 0 < @four reals.
Proof. cbv [four ofnat reals]. cbn. lra. Qed.
Lemma five_pos : 0 < @five reals.
Proof. cbv [five ofnat reals]. cbn. lra. Qed.
Ltac fpos := solve [lra | apply four_pos | apply five_pos | apply maxp_r; fpos | apply maxp_l; fpos].
Ltac fnn FN := solve [lra | apply FN | apply maxn_l; fnn FN].
Ltac flags := unfold fl1, fl2; cbv zeta; rewrite ?maxdec_val; unfold upd; rewrite ?maxdec_val; unfold upd; cbn [zero two three reals].
Ltac rows_ k i Hi := repeat rowsp;
    replace (i <? k)%nat with true by (symmetry; apply Nat.ltb_lt; lia);
    rewrite ?andb_true_r; cbn [add sub mul neg reals]; cbv zeta; natcases; try reflexivity.
Ltac qrow k Q FN :=
  eapply quiet_touch; [exact Q|]; let l := fresh "l" in let i := fresh "i" in let Hi := fresh "Hi" in
  intros l; flags; natcases;
  first [ left; fpos
        | right; right; split; [reflexivity|]; intros i Hi; rows_ k i Hi; fail
        | right; left; split; [fnn FN|]; intros i Hi; rows_ k i Hi; fail
        | idtac ].

(* loops that put 0 into row res and write nothing else but row arg *)
Lemma up_clears o arg res (body : nat -> rrows -> rrows) :
  (forall i A l j, l <> arg -> body i A l j = if (l =? res)%nat && (j =? o + i)%nat then 0 else A l j) ->
  forall k A l j, l <> arg ->
  up k body A l j = if (l =? res)%nat && (o <=? j)%nat && (j <? o + k)%nat then 0 else A l j.
Proof.
  intros H. induction k as [|k IH]; intros A l j N; cbn [up].
  - destruct (Nat.leb_spec o j), (Nat.ltb_spec j (o + 0)); try lia; now rewrite ?andb_false_r.
  - rewrite H, IH by auto. destruct (Nat.eqb_spec l res); cbn [andb]; auto.
    destruct (Nat.leb_spec o j), (Nat.ltb_spec j (o + k)), (Nat.ltb_spec j (o + S k)), (Nat.eqb_spec j (o + k)); cbn [andb]; auto; lia.
Qed.
Lemma put2 (A : rrows) arg res i v l j : l <> arg ->
  rput (rput A arg i v) res i 0 l j = if (l =? res)%nat && (j =? 0 + i)%nat then 0 else A l j.
Proof. intros N. unfold rput, put. cbn [Nat.add]. destruct (Nat.eqb_spec l res), (Nat.eqb_spec j i), (Nat.eqb_spec l arg); cbn; try reflexivity; contradiction. Qed.
Lemma Rfloor_INR n : Rfloor (INR n) = INR n.
Proof. unfold Rfloor. rewrite (@floor_unique _ (Z.of_nat n)); rewrite <- INR_IZR_INZ; lra. Qed.
Lemma powsmall_clears k arg res c X A l i : l <> arg -> (i < k)%nat ->
  @powsmall reals k arg res c X A l i = if (l =? res)%nat then 0 else A l i.
Proof.
  intros N Hi.
  assert (FIN : forall body, (forall i A l j, l <> arg -> body i A l j = if (l =? res)%nat && (j =? 0 + i)%nat then 0 else A l j) ->
    up k body A l i = if (l =? res)%nat then 0 else A l i).
  { intros body H. rewrite (@up_clears 0 arg res body H) by auto.
    replace (i <? 0 + k)%nat with true by (symmetry; apply Nat.ltb_lt; lia). now rewrite !andb_true_r. }
  unfold powsmall. destruct (leb reals c _).
  - apply FIN. intros. now apply put2.
  - destruct (eqb reals (sub reals c _) _) eqn:E; cbn [negb].
    + destruct (eqb reals c (one reals)).
      * rewrite mv0_spec. replace (i <? k)%nat with true by (symmetry; apply Nat.ltb_lt; lia).
        destruct (Nat.eqb_spec l arg); [contradiction|reflexivity].
      * destruct (eqb reals c (three reals)); repeat rowsp; cbn beta;
          replace (i <? k)%nat with true by (symmetry; apply Nat.ltb_lt; lia);
          rewrite ?andb_true_r; destruct (Nat.eqb_spec l arg); try contradiction; reflexivity.
    + apply FIN. clear FIN i Hi. intros i B l' j N'. cbv zeta.
      cbn [eqb sub vfloor zero reals] in E. unfold Reqb in E. destruct (Req_EM_T (c - Rfloor c) 0) as [|E']; [discriminate|].
      assert (NI : forall n, c <> INR n) by (intros n ->; apply E'; rewrite Rfloor_INR; lra).
      pose proof (NI i) as N1. pose proof (NI (S i)) as N2. rewrite S_INR in N2.
      cbn [ltb sub one zero ofnat reals]. unfold Rltb. rewrite <- ?INR_IZR_INZ.
      repeat (match goal with |- context [Rlt_dec ?a ?b] => destruct (Rlt_dec a b) end; cbn [andb]); try (exfalso; lra);
        now apply put2.
Qed.
Lemma hrcopy_quiet k n arg res : forall q (T : rrows) F A st, quiet k F A ->
  let '(_, F', A', _) := @hrcopy reals k n arg res q T F A st in quiet k F' A'.
Proof.
  induction n as [|n IH]; intros q T F A st Q; cbn [hrcopy]; [exact Q|]. unfold gettayl.
  cbn [eqb zero reals]; unfold Reqb. destruct (Req_EM_T (F (res + q)%nat) 0) as [Z|Z]; [now apply IH|].
  apply IH. assert (FN : forall l, 0 <= F l) by (intros l; apply Q).
  assert (P : 0 < F (res + q)%nat) by (pose proof (FN (res + q)%nat); lra). qrow k Q FN.
Qed.
Lemma hrdot_quiet k n a1 a2 res (T : rrows) : forall q F A, quiet k F A ->
  let '(F', A') := @hrdot reals k n a1 a2 res q T F A in quiet k F' A'.
Proof.
  induction n as [|n IH]; intros q F A Q; cbn [hrdot]; [exact Q|].
  cbn [eqb zero reals]; unfold Reqb. destruct (Req_EM_T (F res) 0) as [Z|Z]; [now apply IH|].
  apply IH. assert (FN : forall l, 0 <= F l) by (intros l; apply Q).
  assert (P : 0 < F res) by (pose proof (FN res); lra). pose proof (comp2_ge (F res)) as [C2a C2b]. qrow k Q FN.
Qed.
Lemma hraxpy_quiet k n arg a1 a2 res : a2 <> res -> forall q (T : rrows) F A st, quiet k F A ->
  let '(_, F', A', _) := @hraxpy reals k n arg a1 a2 res q T F A st in quiet k F' A'.
Proof.
  intros NE. induction n as [|n IH]; intros q T F A st Q; cbn [hraxpy]; [exact Q|]. unfold gettayl.
  cbn [eqb zero reals]; unfold Reqb. destruct (Req_EM_T (F (res + q)%nat) 0) as [Z|Z]; [now apply IH|].
  apply IH. assert (FN : forall l, 0 <= F l) by (intros l; apply Q).
  assert (P : 0 < F (res + q)%nat) by (pose proof (FN (res + q)%nat); lra).
  pose proof (comp2_ge (F (res + q)%nat)) as [C2a C2b]. qrow k Q FN.
Qed.
Lemma hrzero_quiet k n : forall j (F : rmem) (A : rrows), quiet k F A ->
  let '(F', A') := @hrzero reals k n j F A in quiet k F' A'.
Proof.
  induction n as [|n IH]; intros j F A Q; cbn [hrzero]; [exact Q|]. apply IH.
  assert (FN : forall l, 0 <= F l) by (intros l; apply Q). cbn [zero reals]. qrow k Q FN.
Qed.
Lemma hrval_quiet eps k b (T : rrows) (F : rmem) (A : rrows) st :
  match b with FloorOp _ _ res _ => F res = 0 | VecAxpy _ _ _ a2 _ res => a2 <> res | _ => True end -> quiet k F A ->
  match @hrval reals eps k b T F A st with
  | Some (_, F', A', _) => quiet k F' A'
  | None => True
  end.
Proof.
  intros Fl Q. assert (FN : forall l, 0 <= F l) by (intros l; apply Q). destruct b; cbn [hrval]; unfold gettayl; cbv zeta; auto.
  all: cbn [eqb zero reals]; unfold Reqb.
  all: try (destruct (Req_EM_T (F res) 0) as [Z|Z]; [exact Q|]; assert (P : 0 < F res) by (pose proof (proj1 (Q res)); lra)).
  all: try (pose proof (comp2_ge (F res)) as [C2a C2b]).
  all: try (qrow k Q FN; fail).
  - eapply quiet_touch; [exact Q|]. intros l. destruct (Nat.eq_dec l res) as [->|N]; [now left|]. right; right. split; auto.
    intros i Hi. rowsp. destruct (Nat.eqb_spec l res); [contradiction|reflexivity].
  - match goal with |- context [if ?c then inconv0_ _ _ _ _ _ _ else _] => destruct c end; [qrow k Q FN|].
    eapply quiet_touch; [exact Q|]. intros l. flags. natcases;
      first [left; fpos | right; left; split; [lra|]; intros i Hi; rewrite powsmall_clears by auto; now rewrite Nat.eqb_refl
        | right; right; split; [reflexivity|]; intros i Hi; rewrite powsmall_clears by auto; destruct (Nat.eqb_spec l res); [contradiction|reflexivity] ].
  - destruct (@minpick reals _ _ _ _) as [[a late]|]; destruct (Req_EM_T (F res) 0) as [Z|Z]; try exact Q;
      assert (P : 0 < F res) by (pose proof (FN res); lra).
    + destruct late; qrow k Q FN.
    + assert (P2 : 0 < F res) by exact P. qrow k Q FN.
  - destruct (@abspick reals _ _ _) as [x jj]. destruct (Req_EM_T (F res) 0) as [Z|Z]; [exact Q|].
    assert (P : 0 < F res) by (pose proof (FN res); lra).
    assert (CL : forall l i, l <> arg -> (i < k)%nat ->
      up (k - jj) (fun (i : nat) (A0 : rrows) => rput (rput A0 res (jj + i)%nat 0) arg (jj + i)%nat
           (add reals (rput A0 res (jj + i)%nat 0 arg (jj + i)%nat) (mul reals x (A0 res (jj + i)%nat)))) (@zerorow reals jj res A) l i
      = if (l =? res)%nat then 0 else A l i).
    { intros l i N Hi. rewrite (@up_clears jj arg res); [|clear; intros i A0 l j N; unfold rput, put; destruct (Nat.eqb_spec l arg); [contradiction|]; cbn [andb]; reflexivity|exact N].
      rewrite zerorow_spec. destruct (Nat.eqb_spec l res); cbn [andb]; auto.
      destruct (Nat.leb_spec jj i), (Nat.ltb_spec i (jj + (k - jj))), (Nat.ltb_spec i jj); cbn; auto; lia. }
    eapply quiet_touch; [exact Q|]. intros l. destruct (Req_EM_T _ 0); flags; natcases; 
      first [left; fpos | right; left; split; [lra|]; intros i Hi; rewrite CL by auto; now rewrite Nat.eqb_refl
        | right; right; split; [reflexivity|]; intros i Hi; rewrite CL by auto; destruct (Nat.eqb_spec l res); [contradiction|reflexivity] ].
  - exact I.
  all: try (repeat match goal with
      | |- context [ltb reals ?a ?b] => destruct (ltb reals a b)
      | |- context [leb reals ?a ?b] => destruct (leb reals a b)
      | |- context [if (?a =? ?b)%nat then _ else _] => destruct (Nat.eqb_spec a b)
      | Q : quiet _ ?F _ |- context [Req_EM_T (?F ?r) 0] => let P := fresh "P" in let Z := fresh "Z" in
          destruct (Req_EM_T (F r) 0) as [Z|Z]; [|assert (P : 0 < F r) by (pose proof (proj1 (Q r)); lra)]
      | |- context [Req_EM_T ?x 0] => destruct (Req_EM_T x 0) end;
      subst; first [exact Q | qrow k Q FN]; fail).
  - pose proof (@hrcopy_quiet k size arg res 0 T F A st Q). destruct (@hrcopy reals _ _ _ _ _ _ _ _ _) as [[[T1 F1] A1] s1]. exact H.
  - pose proof (@hrdot_quiet k size a1 a2 res (setrow T res (fun i : nat => nth (k - 1 - i) st 0) k) 0 F A Q) as H1.
    pose proof (@hrdot_quiet k size a1 a2 res T 0 F A Q) as H.
    destruct (@hrdot reals _ _ _ _ _ _ T _ _) as [F1 A1]. exact H.
  - pose proof (@hraxpy_quiet k size arg a1 a2 res Fl 0 T F A st Q). destruct (@hraxpy reals _ _ _ _ _ _ _ _ _ _ _) as [[[T1 F1] A1] s1]. exact H.
  - pose proof (@hrzero_quiet k size res F A Q). destruct (@hrzero reals _ _ _ _ _) as [F1 A1]. exact H.
  - pose proof (@hrzero_quiet k (S a2 - a1) a1 F A Q). destruct (@hrzero reals _ _ _ _ _) as [F1 A1].
    destruct (@gettayl_up reals _ _ _ _ _). exact H.
Qed.

Lemma hvrows_quiet eps p k b (T : rrows) F A st :
  match b with FloorOp _ _ res _ => forall l, (l < p)%nat -> F l res = 0 | VecAxpy _ _ _ a2 _ res => a2 <> res | _ => True end ->
  (forall l, (l < p)%nat -> quiet k (F l) (A l)) ->
  match @hvrows reals eps p k b T F A st with
  | Some (_, F', A', _) => forall l, (l < p)%nat -> quiet k (F' l) (A' l)
  | None => True
  end.
Proof.
  intros G Q. unfold hvrows. destruct (@hrval reals eps k b T (F 0%nat) (A 0%nat) st) as [[[[T' f0] a0] st']|]; auto.
  destruct (forallb _ _) eqn:E; auto. intros l L. rewrite (proj2 (Nat.ltb_lt l p) L).
  rewrite forallb_forall in E. specialize (E l). rewrite in_seq in E. specialize (E ltac:(lia)).
  pose proof (@hrval_quiet eps k b T (F l) (A l) st) as H.
  destruct (@hrval reals eps k b T (F l) (A l) st) as [[[[T1 F1] A1] s1]|]; [|discriminate].
  cbn [oF oA]. apply H; auto. destruct b; auto.
Qed.
Lemma hvval_quiet eps p k b (T : rrows) F A st :
  match b with VecAxpy _ _ _ a2 _ res => a2 <> res | _ => True end ->
  (forall l, (l < p)%nat -> quiet k (F l) (A l)) ->
  match @hvval reals eps p k b T F A st with
  | Some (_, F', A', _) => forall l, (l < p)%nat -> quiet k (F' l) (A' l)
  | None => True
  end.
Proof.
  intros G Q.
  assert (H : match b with FloorOp _ _ res _ => forall l, (l < p)%nat -> F l res = 0 | _ => True end ->
    match @hvrows reals eps p k b T F A st with
    | Some (_, F', A', _) => forall l, (l < p)%nat -> quiet k (F' l) (A' l)
    | None => True end) by (intros H; apply hvrows_quiet; auto; destruct b; auto).
  destruct b; unfold hvval; try (apply H; auto; fail).
  - destruct (existsb _ _); [exact Logic.I|exact (H Logic.I)].
  - destruct (@anyflag reals p F res); [exact Logic.I|exact (H Logic.I)].
  - destruct (@anyflag reals p F res) eqn:E; [exact Logic.I|]. apply H. cbn beta iota. intros l L. destruct (Req_dec (F l res) 0) as [|N]; auto. exfalso.
    assert (@anyflag reals p F res = true); [|congruence]. unfold anyflag. apply existsb_exists. exists l.
    rewrite in_seq. split; [lia|]. cbn [eqb zero reals]. unfold Reqb. destruct (Req_EM_T (F l res) 0); [contradiction|reflexivity].
  - specialize (H Logic.I). destruct (@hvrows reals eps p k _ T F A st) as [[[[T1 F1] A1] s1]|]; auto.
    intros l L. unfold updd. destruct (Nat.eqb_spec l 0) as [->|]; auto.
Qed.

(* y = a * x + y, element by element, is recorded in place *)
Definition inplace (o : op reals) : Prop :=
  match o with Plain (VecAxpy _ _ _ a2 _ res) => a2 = res | _ => False end.
Definition indep (o : op reals) : bool :=
  match o with Plain (AssignInd _ _) | RefAssignInd _ _ => true | _ => false end.
Definition nindeps (t : list (op reals)) : nat := length (filter indep t).

Lemma hvrun_quiet eps p k L n ts : Forall (fun o => ~ inplace o) ts -> forall v v',
  (forall l, (l < p)%nat -> quiet k (hvF v l) (hvA v l)) ->
  (forall l i, (l < p)%nat -> (hvi v <= i < n)%nat -> 0 <= hvnz v l i /\ (hvnz v l i = 0 -> forall j, (j < k)%nat -> hvz v l i j = 0)) ->
  fold_left (fun s o => match s with Some s => @hvstep reals eps p k L o s | None => None end) ts (Some v) = Some v' ->
  hvi v' = (hvi v - nindeps ts)%nat /\
  (forall l i, (l < p)%nat -> (hvi v' <= i < n)%nat -> 0 <= hvnz v' l i /\ (hvnz v' l i = 0 -> forall j, (j < k)%nat -> hvz v' l i j = 0)).
Proof.
  induction ts as [|o ts IH]; intros G v v' Q Z; cbn [fold_left].
  - intros [= <-]. split; [cbn; lia|auto].
  - inversion G as [|? ? G1 G2]; subst. unfold hvstep at 2. set (b := resolve _ o).
    pose proof (@hvval_quiet eps p k b (hvT v) (hvF v) (hvA v) (hvk v)) as H.
    destruct (@hvval reals eps p k b _ _ _ _) as [[[[T' F'] A'] st']|];
      [|rewrite (fold_none (fun s o => @hvstep reals eps p k L o s)); discriminate].
    assert (H1 : forall l, (l < p)%nat -> quiet k (F' l) (A' l)).
    { apply H; [|exact Q]. clear - G1. unfold b; destruct o as [b0| | | | | | | | | | | | | | | | | | | |]; cbn [resolve]; auto.
      destruct b0; auto. }
    clear H. 
    assert (Oth : indep o = false -> forall F'' A'' d'', (forall l, (l < p)%nat -> quiet k (F'' l) (A'' l)) ->
      fold_left (fun s o => match s with Some s => @hvstep reals eps p k L o s | None => None end) ts
        (Some (mkHV T' F'' A'' st' (hvz v) (hvnz v) (hvi v) d'')) = Some v' ->
      hvi v' = (hvi v - nindeps (o :: ts))%nat /\
      (forall l i, (l < p)%nat -> (hvi v' <= i < n)%nat -> 0 <= hvnz v' l i /\ (hvnz v' l i = 0 -> forall j, (j < k)%nat -> hvz v' l i j = 0))).
    { intros Ei F'' A'' d'' Q'' R''. apply IH in R''; auto. unfold nindeps in *. cbn [filter]. rewrite Ei. exact R''. }
    assert (Ind : match b with AssignInd _ _ => indep o = true | _ => indep o = false end)
      by (unfold b; destruct o as [b0| | | | | | | | | | | | | | | | | | | |]; cbn [resolve indep]; try reflexivity; destruct b0; reflexivity).
    destruct b; try (intros R; exact (Oth Ind _ _ _ H1 R)).
    + intros R. apply IH in R; auto; cbn [hvi hvz hvnz] in *.
      * destruct R as [R1 R2]. split; [|exact R2]. unfold nindeps in *. cbn [filter]. rewrite Ind. cbn [length]. lia.
      * intros l i Ll Hi. rewrite (proj2 (Nat.ltb_lt l p) Ll). cbn [andb]. destruct (Nat.eqb_spec i (hvi v - 1)) as [->|N].
        -- destruct (Q l Ll res) as [Q1 Q2]. split; auto. intros E j Hj. unfold setrow. rewrite Nat.eqb_refl.
           rewrite (proj2 (Nat.ltb_lt j k) Hj). cbn [andb]. auto.
        -- destruct (Z l i Ll) as [Z1 Z2]; [lia|]. split; auto. intros E j Hj. unfold setrow.
           destruct (Nat.eqb_spec i (hvi v - 1)); [contradiction|]. cbn [andb]. auto.
    + intros R. refine (Oth Ind _ _ _ _ R). intros l Ll. rewrite (proj2 (Nat.ltb_lt l p) Ll). intros loc. unfold upd, setrow.
      destruct (@depflag_ok 1 Nat.lt_0_1 k (L l (hvd v - 1)%nat)) as [D1 D2].
      destruct (Nat.eqb_spec loc res); cbn [andb]; [|apply H1; auto]. split; auto. intros E j Hj.
      rewrite (proj2 (Nat.ltb_lt j k) Hj). auto.
Qed.

(* nonzero[l][i] = 0 only if all coefficients of results[l][i] are 0 *)
Theorem C52_pattern eps p d L n m gz gnz st t v :
  Forall (fun o => ~ inplace o) t -> (n <= nindeps t)%nat ->
  @hov_ti_reverse reals eps d p L n m gz gnz st t = Some v ->
  forall l i, (l < p)%nat -> (i < n)%nat -> 0 <= hvnz v l i /\ (hvnz v l i = 0 -> forall j, (j <= d)%nat -> hvz v l i j = 0).
Proof.
  intros G N. unfold hov_ti_reverse, hvrun. intros H.
  assert (G' : Forall (fun o => ~ inplace o) (rev t)).
  { apply Forall_forall. intros o Ho. apply in_rev in Ho. rewrite Forall_forall in G. auto. }
  assert (N' : nindeps (rev t) = nindeps t).
  { clear. unfold nindeps. induction t as [|o t IH]; auto. cbn [rev]. rewrite filter_app, app_length, IH. cbn [filter].
    destruct (indep o); cbn [length]; lia. }
  apply (@hvrun_quiet eps p (S d) L n (rev t) G') in H.
  - destruct H as [H1 H2]. intros l i Hl Hi. destruct (H2 l i Hl) as [A1 A2]; [cbn [hvi] in H1; lia|]. split; auto.
    intros E j Hj. apply A2; auto. lia.
  - intros l _ loc. cbn. split; [lra|auto].
  - cbn [hvi]. intros l i _ Hi. lia.
Qed.
