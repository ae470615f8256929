(* C43: the rows of hos_reverse follow the adjoints of fos_reverse along the curve. *)
From Coq Require Import List ZArith Bool Arith Lia Reals Lra FunctionalExtensionality.
From Coquelicot Require Import Coquelicot.
Require Import Verif.AdModel Verif.AdRecord Verif.AdSpec Verif.AdReplay Verif.AdRestore
  Verif.AdReal Verif.AdLin Verif.AdReverse Verif.AdTidy Verif.AdDeriv Verif.AdTangent
  Verif.AdTidyCalls Verif.AdPlain Verif.AdPlainRun Verif.AdProps Verif.AdReverseProps Verif.AdDerivProps
  Verif.HosModel Verif.HosSpec Verif.HosTay Verif.HosFun Verif.HosLoops Verif.HosProofs Verif.HosProps
  Verif.HrvModel Verif.HrvLoops Verif.HrvOp Verif.HrvRow Verif.HrvTay Verif.HrvFos.
Import ListNotations.
Set Implicit Arguments.
Unset Asymmetric Patterns.
Local Open Scope R_scope.

Section Trace.
Variables (eps : R) (d : nat) (s0 : R) (X : R -> nat -> R) (xc : rrows) (ps : nat -> R).
Hypothesis Hd : (0 < d)%nat.
Hypothesis He : 0 <= eps.
Hypothesis HX : forall i, tay d (fun s => X s i) s0 (joined (X s0 i) (xc i)).

Fixpoint brok (bs : list (bop reals)) (i : nat) (T : rmem) : Prop :=
  match bs with
  | [] => True
  | b :: bs' => rok eps b T /\ brok bs' (next_i b i) (@zval reals ps (X s0) i b T)
  end.

Fixpoint tracks (bs : list (bop reals)) (i : nat) (D : nat -> Prop) (Tm : R -> rmem) (C : rrows) : Prop :=
  match bs with
  | [] => tfollows d s0 D Tm C
  | b :: bs' =>
      let Tm' := fun s => @zval reals ps (X s) i b (Tm s) in
      let C' := @hval reals d ps (X s0) xc i b (Tm s0) C in
      tfollows d s0 D Tm C /\ (forall l, In l (breads b) -> D l) /\
      match b with HelpOp _ _ _ a2 _ => D a2 | _ => True end /\
      (helper_ok b /\ (forall s, helper_val b (Tm s)) /\ AdTangent.apart b) /\
      rok eps b (Tm s0) /\ smooth b (Tm s0) (Tm' s0) /\ locally s0 (fun s => smooth b (Tm s) (Tm' s)) /\
      tfollows d s0 (plusset D (bwrites b)) Tm' C' /\
      tracks bs' (next_i b i) (plusset D (bwrites b)) Tm' C'
  end.

Lemma nz_loc (f : R -> R) a : tay d f s0 a -> f s0 <> 0 -> locally s0 (fun s => f s <> 0).
Proof.
  intros H N. pose proof (@tay_d d s0 Hd _ _ H) as Dv. destruct (Rlt_dec 0 (f s0)) as [P|P].
  - eapply filter_imp; [|exact (@loc_pos s0 f _ Dv P)]. intros s Hs; lra.
  - eapply filter_imp; [|apply (@loc_neg s0 f _ Dv)]; [intros s Hs; cbv beta in Hs; lra|lra].
Qed.

Lemma smooth_loc b D (Tm Tm' : R -> rmem) C C' :
  tfollows d s0 D Tm C -> tfollows d s0 (plusset D (bwrites b)) Tm' C' ->
  (forall l, In l (breads b) -> D l) -> rok eps b (Tm s0) -> smooth b (Tm s0) (Tm' s0) ->
  locally s0 (fun s => smooth b (Tm s) (Tm' s)).
Proof.
  intros F F' HR Rk Sm.
  assert (NZ : forall a, In a (breads b) -> Tm s0 a <> 0 -> locally s0 (fun s => Tm s a <> 0)).
  { intros a Ha. exact (@nz_loc (fun s => Tm s a) _ (F a (HR a Ha))). }
  assert (PO : forall a, In a (breads b) -> 0 < Tm s0 a -> locally s0 (fun s => 0 < Tm s a)).
  { intros a Ha. exact (@loc_pos s0 (fun s => Tm s a) _ (@tay_d d s0 Hd _ _ (F a (HR a Ha)))). }
  assert (NE : forall a, In a (breads b) -> Tm s0 a < 0 -> locally s0 (fun s => Tm s a < 0)).
  { intros a Ha. exact (@loc_neg s0 (fun s => Tm s a) _ (@tay_d d s0 Hd _ _ (F a (HR a Ha)))). }
  destruct b; cbn [smooth rok breads bwrites] in *; try contradiction; try (apply filter_forall; intros s; exact I);
    try (apply NZ; cbn; auto; fail); try (apply PO; cbn; auto; fail).
  - destruct Sm as [Sm Sp]. apply filter_and.
    + eapply hdom_loc; [exact Hd|apply F, HR; cbn; auto|exact Sm].
    + assert (T1 : tay d (fun s => Tm' s a1) s0 (joined (Tm' s0 a1) (C' a1))) by (apply F'; left; apply HR; cbn; auto).
      assert (M : forall v, Tm' s0 a1 <> v -> locally s0 (fun s => Tm' s a1 <> v)).
      { intros v Hv. pose proof (@tay_minus d _ _ s0 _ _ T1 (tay_const' d s0 v)) as T2.
        eapply filter_imp; [|apply (@nz_loc (fun s => Tm' s a1 - v) _ T2)]; cbv beta; [intros s Hs E; apply Hs; lra|lra]. }
      assert (E1 : forall v : R, @eqb reals v (@one reals) = true <-> v = 1).
      { intros v. cbn. unfold Reqb. destruct (Req_EM_T v 1); split; auto; discriminate. }
      assert (E2 : forall v : R, @eqb reals v (@neg reals (@one reals)) = true <-> v = -1).
      { intros v. cbn. unfold Reqb. replace (- (1)) with (-1) by ring. destruct (Req_EM_T v (-1)); split; auto; discriminate. }
      assert (L1 : @eqb reals (Tm' s0 a1) (@one reals) = false -> locally s0 (fun s => @eqb reals (Tm' s a1) (@one reals) = false)).
      { intros E. eapply filter_imp; [|apply (M 1)]; cbv beta.
        - intros s Hs. destruct (@eqb reals (Tm' s a1) (@one reals)) eqn:Q; auto. apply E1 in Q. contradiction.
        - intros Q. apply E1 in Q. congruence. }
      assert (L2 : @eqb reals (Tm' s0 a1) (@neg reals (@one reals)) = false -> locally s0 (fun s => @eqb reals (Tm' s a1) (@neg reals (@one reals)) = false)).
      { intros E. eapply filter_imp; [|apply (M (-1))]; cbv beta.
        - intros s Hs. destruct (@eqb reals (Tm' s a1) (@neg reals (@one reals))) eqn:Q; auto. apply E2 in Q. contradiction.
        - intros Q. apply E2 in Q. congruence. }
      specialize (Sp 0). destruct f; cbn [help_special] in *; try (apply filter_forall; intros; reflexivity);
        destruct (@eqb reals (Tm' s0 a1) (@one reals)) eqn:Q1; try discriminate;
        try (destruct (@eqb reals (Tm' s0 a1) (@neg reals (@one reals))) eqn:Q2; try discriminate);
        first [ eapply filter_imp; [|exact (filter_and _ _ (L1 eq_refl) (L2 eq_refl))]; cbv beta; intros s [A1 A2] v; rewrite A1, ?A2; reflexivity
              | eapply filter_imp; [|exact (L1 eq_refl)]; cbv beta; intros s A1 v; rewrite A1; reflexivity ].
  - destruct Sm as [Sm|[Sm Sc]].
    + eapply filter_imp; [|apply (PO arg); cbn; auto]. cbv beta. auto.
    + eapply filter_imp; [|apply (NE arg); cbn; auto]. cbv beta. auto.
  - destruct Sm as [Sm|Sm]; [|apply filter_forall; auto].
    pose proof (@tay_minus d _ _ s0 _ _ (F a1 (HR a1 ltac:(cbn; auto))) (F a2 (HR a2 ltac:(cbn; auto)))) as T2.
    eapply filter_imp; [|apply (@nz_loc (fun s => Tm s a1 - Tm s a2) _ T2)]; cbv beta; [intros s Hs; left; lra|lra].
Qed.

Definition tracked (A : list nat) (bs : list (bop reals)) (i : nat) (Tm : R -> rmem) : Prop :=
  forall (D : nat -> Prop) (C : rrows), tfollows d s0 D Tm C -> (forall l, In l A -> D l) ->
  freads bs D -> bsmooth ps (X s0) bs i (Tm s0) -> nofail d bs -> brok bs i (Tm s0) ->
  tracks bs i D Tm C.

Lemma tracked_cons A b bs i Tm : AdTangent.apart b -> helper_ok b -> (forall s, helper_val b (Tm s)) ->
  match b with HelpOp _ _ _ a2 _ => In a2 A | _ => True end ->
  tracked (A ++ bwrites b) bs (next_i b i) (fun s => @zval reals ps (X s) i b (Tm s)) -> tracked A (b :: bs) i Tm.
Proof.
  intros Ha Ho Hv HA G D C F HD [HR HR'] [Sm Sm'] Hn [Rk Rk']. inversion Hn as [|? ? N1 N2]; subst.
  assert (HA' : match b with HelpOp _ _ _ a2 _ => D a2 | _ => True end) by (destruct b; auto).
  assert (F' : tfollows d s0 (plusset D (bwrites b)) (fun s => @zval reals ps (X s) i b (Tm s))
          (@hval reals d ps (X s0) xc i b (Tm s0) C)).
  { apply (@op_tay d s0 X xc Hd HX); auto. apply filter_forall. auto. }
  cbn [tracks]. split; [exact F|]. split; [exact HR|]. split; [exact HA'|].
  split; [auto|]. split; [exact Rk|]. split; [exact Sm|].
  split; [eapply smooth_loc; eauto|]. split; [exact F'|].
  apply G; auto. intros l Hl. apply in_app_or in Hl. destruct Hl as [Hl|Hl]; [left; auto|now right].
Qed.

Lemma tracked_pre pre : List.Forall (fun b => neat b /\ is_ind b = false) pre -> forall A bs i Tm,
  (tracked (A ++ concat (map (@bwrites reals) pre)) bs i (fun s => vals ps (X s) i pre (Tm s))) ->
  tracked A (pre ++ bs) i Tm.
Proof.
  induction 1 as [|b pre [[Ha Hb] Hi] _ IH]; intros A bs i Tm G; cbn [app vals map concat] in *.
  - now rewrite app_nil_r in G.
  - apply tracked_cons; auto; try (now destruct b).
    unfold next_i. rewrite Hi. apply IH. now rewrite <- app_assoc.
Qed.

Theorem trace_tracked bs : helped bs -> forall A i Tm, tracked A bs i Tm.
Proof.
  induction 1 as [|b bs [Ha Hb] _ IH|f a1 a2 r pre bs Hp Hf Hn Hv _ IH]; intros A i Tm.
  - intros D C F _ _ _ _ _. exact F.
  - apply tracked_cons; auto; now destruct b.
  - apply tracked_pre; auto. apply tracked_cons; auto.
    + intros s. cbn. destruct (Hv ps (X s) i (Tm s)) as [-> ->]. reflexivity.
    + apply in_or_app. right. eapply helper_written; eauto.
Qed.

(* operations that are not independents *)
Fixpoint hvals (x : nat -> R) (i : nat) (bs : list (bop reals)) (T : rmem) (C : rrows) : rrows :=
  match bs with [] => C | b :: bs' => hvals x i bs' (@zval reals ps x i b T) (@hval reals d ps x xc i b T C) end.
Lemma tracks_pre pre : List.Forall (fun b => is_ind b = false) pre -> forall bs i D Tm C,
  tracks (pre ++ bs) i D Tm C ->
  exists D', tracks bs i D' (fun s => vals ps (X s) i pre (Tm s)) (hvals (X s0) i pre (Tm s0) C).
Proof.
  induction 1 as [|b pre Hb _ IH]; intros bs i D Tm C H; cbn [app vals hvals] in *.
  - exists D. exact H.
  - cbn [tracks] in H. destruct H as (_ & _ & _ & _ & _ & _ & _ & _ & H). unfold next_i in H. rewrite Hb in H. apply (IH _ _ _ _ _ H).
Qed.

(* smooth on a neighbourhood *)
Lemma tracks_smooth bs : forall i D Tm C, tracks bs i D Tm C -> locally s0 (fun s => bsmooth ps (X s) bs i (Tm s)).
Proof.
  induction bs as [|b bs IH]; intros i D Tm C H; cbn [bsmooth]; [apply filter_forall; intros; exact I|].
  cbn [tracks] in H. destruct H as (_ & _ & _ & _ & _ & _ & L & _ & H). apply filter_and; [exact L|]. apply (IH _ _ _ _ H).
Qed.

Fixpoint hstk (x : nat -> R) (bs : list (bop reals)) (i : nat) (T : rmem) (C : rrows) (st : list R) : list R :=
  match bs with
  | [] => st
  | b :: bs' => hstk x bs' (next_i b i) (@zval reals ps x i b T) (@hval reals d ps x xc i b T C)
                  (rev (@hpushes reals (S d) b T C) ++ st)
  end.
Fixpoint iend (bs : list (bop reals)) (i : nat) : nat := match bs with [] => i | b :: bs' => iend bs' (next_i b i) end.
Definition nout (b : bop reals) : nat := length (out_of b (fun _ => 0)).
Fixpoint jend (bs : list (bop reals)) (j : nat) : nat := match bs with [] => j | b :: bs' => jend bs' (j + nout b)%nat end.
Lemma nout_of b T : length (out_of b T) = nout b. Proof. now destruct b. Qed.

Lemma down_rows (T : rmem) (C : rrows) n : forall a,
  rev (flat_map (@taken reals (S d) T C) (down n a)) = flat_map (fun l => rev (@taken reals (S d) T C l)) (seq a (S n)).
Proof.
  intros a. rewrite <- down_up. induction (down n a) as [|x l IH]; auto.
  cbn [flat_map rev]. rewrite rev_app_distr, IH, flat_map_app. cbn [flat_map]. now rewrite app_nil_r.
Qed.
Lemma gettayl_up_rows (T : rmem) (C : rrows) n : forall a Tr st, exists T1,
  @gettayl_up reals (S d) n a Tr (flat_map (fun l => rev (@taken reals (S d) T C l)) (seq a n) ++ st) = (T1, st) /\
  forall l i, T1 l i = if (a <=? l)%nat && (l <? a + n)%nat && (i <? S d)%nat then jr T C l i else Tr l i.
Proof.
  induction n as [|n IH]; intros a Tr st; cbn [seq flat_map gettayl_up app].
  - exists Tr. split; auto. intros l i. destruct (Nat.leb_spec a l), (Nat.ltb_spec l (a + 0)); auto. lia.
  - rewrite <- app_assoc. destruct (@get_jr d Tr T C a (flat_map (fun l => rev (@taken reals (S d) T C l)) (seq (S a) n) ++ st)) as (T1 & -> & G).
    destruct (IH (S a) T1 st) as (T2 & -> & G2). exists T2. split; auto. intros l i. rewrite G2, G.
    destruct (Nat.leb_spec (S a) l), (Nat.ltb_spec l (S a + n)), (Nat.leb_spec a l), (Nat.ltb_spec l (a + S n)), (Nat.eqb_spec l a);
      cbn [andb]; try lia; try subst; auto.
Qed.
Lemma hrzero_val n : forall j (F : rmem) (A : rrows), let (F', A') := @hrzero reals (S d) n j F A in
  (forall l, F' l = if (j <=? l)%nat && (l <? j + n)%nat then 0 else F l) /\
  (forall l i, (i < S d)%nat -> A' l i = if (j <=? l)%nat && (l <? j + n)%nat then 0 else A l i).
Proof.
  induction n as [|n IH]; intros j F A; cbn [hrzero].
  - split; intros l; [|intros i _]; destruct (Nat.leb_spec j l), (Nat.ltb_spec l (j + 0)); auto; lia.
  - specialize (IH (S j) (@upd reals F j 0) (@zerorow reals (S d) j A)).
    change (zero reals) with 0. destruct (@hrzero reals (S d) n (S j) _ _) as [F' A']. destruct IH as [I1 I2]. split.
    + intros l. rewrite I1. unfold upd. destruct (Nat.eqb_spec l j), (Nat.leb_spec (S j) l), (Nat.ltb_spec l (S j + n)),
        (Nat.leb_spec j l), (Nat.ltb_spec l (j + S n)); auto; lia.
    + intros l i Hi. rewrite I2, zerorow_spec by auto. replace (i <? S d)%nat with true by (symmetry; apply Nat.ltb_lt; auto).
      destruct (Nat.eqb_spec l j), (Nat.leb_spec (S j) l), (Nat.ltb_spec l (S j + n)),
        (Nat.leb_spec j l), (Nat.ltb_spec l (j + S n)); auto; lia.
Qed.
Lemma depflag_ok k (L : nat -> R) : 0 <= @depflag reals k L /\ (@depflag reals k L = 0 -> forall i, (i < k)%nat -> L i = 0).
Proof.
  unfold depflag.
  assert (G : forall k, match up k (fun i (dc : option nat) => if @eqb reals (L i) (zero reals) then dc else Some i) None with
     | None => forall i, (i < k)%nat -> L i = 0 | Some _ => True end).
  { induction k0 as [|k0 IH]; [intros i Hi; lia|]. cbn [up]. destruct (@eqb reals (L k0) (zero reals)) eqn:E; auto.
    destruct (up k0 _ None); auto. intros i Hi. destruct (Nat.eq_dec i k0) as [->|]; [|apply IH; lia].
    cbn in E. unfold Reqb in E. destruct (Req_EM_T (L k0) 0); [auto|discriminate]. }
  specialize (G k). destruct (up k _ None) as [[|n]|].
  - cbn. split; [lra|intros; lra].
  - cbn. split; [lra|intros; lra].
  - cbn. split; [lra|intros _; exact G].
Qed.
Lemma hrrun_cons k L o t s : @hrrun reals eps k L (o :: t) s =
  match @hrrun reals eps k L t s with Some r => @hrstep reals eps k L o r | None => None end.
Proof. unfold hrrun. cbn [rev]. rewrite fold_left_app. reflexivity. Qed.
Lemma iend_le bs : forall i, (i <= iend bs i)%nat.
Proof. induction bs as [|b bs IH]; intros i; cbn [iend]; auto. specialize (IH (next_i b i)). unfold next_i in *. destruct (is_ind b); lia. Qed.

Lemma hos_ref last (u : R -> nat -> R) (L : nat -> nat -> R) (gT : rrows) (gF : rmem) (gA : rrows) (gz : nat -> nat -> R) (z0 : nat -> R) :
  let N := S last in
  (forall q, tay d (fun s => u s q) s0 (L q)) ->
  forall bs i j D W Dp Tm C st,
  tidy N bs D W = true -> tracks bs i Dp Tm C ->
  exists r, @hrrun reals eps (S d) L (map (@Plain reals) bs ++ [Plain (DeathNot reals 0 last)])
     (@mkHR reals gT gF gA (hstk (X s0) (bs ++ [DeathNot reals 0 last]) i (Tm s0) C st) gz (iend bs i) (jend bs j)) = Some r /\
  hrk r = st /\ hri r = i /\ hrd r = j /\ rsame N (S d) (hrT r) (jr (Tm s0) C) /\
  (forall l, (l < N)%nat -> 0 <= hrF r l) /\
  (forall l, (l < N)%nat -> hrF r l = 0 -> forall i, (i < S d)%nat -> hrA r l i = 0) /\
  (forall l, (l < N)%nat -> tay d (fun s => fst (adjrev (u s) ps (X s) bs i j (Tm s) z0) l) s0 (hrA r l)) /\
  (forall q, (i <= q < iend bs i)%nat -> tay d (fun s => snd (adjrev (u s) ps (X s) bs i j (Tm s) z0) q) s0 (hrz r q)) /\
  (forall q, (iend bs i <= q)%nat -> hrz r q = gz q).
Proof.
  intros N HL. induction bs as [|b bs IH]; intros i j D W Dp Tm C st Ti Tr.
  - cbn [map app iend jend hstk adjrev fst snd]. unfold hrrun. cbn [rev app fold_left]. unfold hrstep. cbn [resolve hrT hrF hrA hrk hrval hpushes].
    pose proof (@hrzero_val (S last - 0) 0 gF gA) as Hz. destruct (@hrzero reals (S d) (S last - 0) 0 gF gA) as [F1 A1]. destruct Hz as [Z1 Z2].
    change (S last - 0)%nat with (S last) in *. rewrite ?Nat.sub_0_r, down_rows. destruct (@gettayl_up_rows (Tm s0) C (S last) 0%nat gT st) as (T1 & -> & G1).
    eexists. split; [reflexivity|]. cbn [hrk hri hrd hrT hrF hrA hrz].
    assert (IN : forall l, (l < N)%nat -> (0 <=? l)%nat && (l <? 0 + S last)%nat = true).
    { intros l Hl. apply andb_true_intro. split; [apply Nat.leb_le; lia|apply Nat.ltb_lt; unfold N in Hl; lia]. }
    split; auto. split; auto. split; auto. split.
    { intros l q Hl Hq. rewrite G1, (IN l Hl). replace (q <? S d)%nat with true by (symmetry; apply Nat.ltb_lt; auto). reflexivity. }
    split. { intros l Hl. rewrite Z1, (IN l Hl). lra. }
    split. { intros l Hl _ q Hq. rewrite Z2, (IN l Hl) by auto. reflexivity. }
    split. { intros l Hl. eapply tay_coef; [|apply (tay_cst d s0 0)]. intros q Hq. rewrite Z2, (IN l Hl) by lia. now destruct q. }
    split; auto. intros; lia.
  - cbn [tidy] in Ti. destruct (tidy_op N b D W) as [[D' W']|] eqn:To; [|discriminate].
    cbn [tracks] in Tr. destruct Tr as (Hf & HR & HA & _ & Rk & Sm & _ & Hf' & Tr).
    destruct (IH (next_i b i) (j + nout b)%nat D' W' _ _ _ (rev (@hpushes reals (S d) b (Tm s0) C) ++ st) Ti Tr)
      as (r & Er & Ek & Ei & Ed & Es & F0 & FZ & HT & Hz & Hz').
    cbn [map app iend jend hstk]. rewrite hrrun_cons. cbn [app]. rewrite Er.
    destruct (@hr_op eps N d ps (X s0) xc i b D W D' W' (Tm s0) C (hrT r) (hrF r) (hrA r) st To Rk Sm Es F0)
      as (T1 & F1 & A1 & Ev & Es1 & Ht).
    assert (HW : forall l, In l (bwrites b) -> (l < N)%nat).
    { intros l Hl. apply (tidy_locs _ _ _ _ To). apply in_or_app. right. apply in_or_app. now left. }
    assert (HRN : forall l, In l (breads b) -> (l < N)%nat).
    { intros l Hl. apply (tidy_locs _ _ _ _ To). apply in_or_app. now left. }
    unfold hrstep. cbn [resolve]. rewrite Ek, Ev.
    destruct (not_dep_ind_cases b) as [Hi|[[res Hdp]|[Hi Ho]]].
    + destruct b; try discriminate Hi. cbn [rterms] in Ht. destruct Ht as [-> ->].
      eexists. split; [reflexivity|]. cbn [hrk hri hrd hrT hrF hrA hrz]. unfold next_i in *. cbn [is_ind] in *.
      rewrite Ei. replace (S i - 1)%nat with i by lia. cbn [nout out_of length] in *. 
      split; auto. split; auto. split; [unfold nout in Ed; cbn in Ed; lia|]. split; auto. split; auto. split; auto.
      cbn [adjrev fst snd out_of length is_ind]. unfold next_i. cbn [is_ind]. unfold nout in *; cbn [out_of length] in *. 
      split; [exact HT|]. pose proof (@iend_le bs (S i)) as Le. split.
      * intros q Hq. destruct (Nat.eq_dec q i) as [->|Ne].
        -- eapply tay_coef; [|eapply tay_ext; [|apply (HT res); apply HW; cbn; auto]].
           ++ intros q Hq1. cbv beta. unfold setrow. rewrite Nat.eqb_refl. replace (q <? S d)%nat with true by (symmetry; apply Nat.ltb_lt; lia). reflexivity.
           ++ intros s. cbv beta. unfold rupd, upd. now rewrite Nat.eqb_refl.
        -- eapply tay_coef; [|eapply tay_ext; [|apply (Hz q); lia]].
           ++ intros q1 Hq1. cbv beta. unfold setrow. apply Nat.eqb_neq in Ne. now rewrite Ne.
           ++ intros s. cbv beta. unfold rupd, upd. apply Nat.eqb_neq in Ne. now rewrite Ne.
      * intros q Hq. rewrite <- Hz' by auto. apply functional_extensionality. intros q1. unfold setrow.
        destruct (Nat.eqb_spec q i); [lia|reflexivity].
    + subst b. cbn [rterms] in Ht. destruct Ht as [-> ->].
      eexists. split; [reflexivity|]. cbn [hrk hri hrd hrT hrF hrA hrz]. unfold next_i in *. cbn [is_ind] in *. unfold nout in *. cbn [out_of length] in *.
      rewrite Ed. replace (j + 1 - 1)%nat with j by lia. destruct (@depflag_ok (S d) (L j)) as [P1 P2].
      split; auto. split; auto. split; auto. split; auto.
      cbn [adjrev fst snd out_of length is_ind]. unfold next_i. cbn [is_ind].
      split. { intros l Hl. unfold upd. destruct (l =? res)%nat; auto. }
      split. { intros l Hl. unfold upd, setrow. destruct (Nat.eqb_spec l res) as [->|]; cbn [andb].
               - intros Q q Hq. replace (q <? S d)%nat with true by (symmetry; apply Nat.ltb_lt; lia). now apply P2.
               - intros Q q Hq. now apply FZ. }
      split; auto.
      intros l Hl. destruct (Nat.eqb_spec l res) as [->|Ne].
      * eapply tay_coef; [|eapply tay_ext; [|apply (HL j)]].
        -- intros q Hq1. cbv beta. unfold setrow. rewrite Nat.eqb_refl. replace (q <? S d)%nat with true by (symmetry; apply Nat.ltb_lt; lia). reflexivity.
        -- intros s. cbv beta. unfold rupd, upd. now rewrite Nat.eqb_refl.
      * eapply tay_coef; [|eapply tay_ext; [|apply (HT l Hl)]].
        -- intros q1 Hq1. cbv beta. unfold setrow. apply Nat.eqb_neq in Ne. now rewrite Ne.
        -- intros s. cbv beta. unfold rupd, upd. apply Nat.eqb_neq in Ne. now rewrite Ne.
    + assert (Ho' : forall T, out_of b T = []) by (intros T; destruct b; auto; discriminate (Ho (fun _ => 0))).
      assert (No : nout b = 0%nat) by (unfold nout; now rewrite Ho').
      assert (Nx : next_i b i = i) by (unfold next_i; now rewrite Hi).
      assert (SQ : forall a rr, b = SqrtOp reals a rr -> 0 < @zval reals ps (X s0) i b (Tm s0) rr).
      { intros a rr ->. cbn [smooth] in Sm. cbn [zval]. unfold upd. rewrite Nat.eqb_refl. cbn [fn reals]. now apply sqrt_lt_R0. }
      destruct (@adj_tay eps d s0 Hd He N b Dp Tm (fun s => @zval reals ps (X s) i b (Tm s)) C _ (hrF r) F1 (hrA r) A1
         (fun s => fst (adjrev (u s) ps (X s) bs (next_i b i) (j + nout b) (@zval reals ps (X s) i b (Tm s)) z0))
         Hf Hf' HR HA Sm Rk SQ HW Ht F0 FZ HT) as (B1 & B2 & B3).
      rewrite No, Nat.add_0_r, Nx in *.
      assert (GG : exists r0 : hrstate reals, Some (@mkHR reals T1 F1 A1 st (hrz r) (hri r) (hrd r)) = Some r0 /\ hrk r0 = st /\ hri r0 = i /\ hrd r0 = j /\
          rsame N (S d) (hrT r0) (jr (Tm s0) C) /\ (forall l, (l < N)%nat -> 0 <= hrF r0 l) /\
          (forall l, (l < N)%nat -> hrF r0 l = 0 -> forall i0, (i0 < S d)%nat -> hrA r0 l i0 = 0) /\
          (forall l, (l < N)%nat -> tay d (fun s => fadj b (Tm s) (@zval reals ps (X s) i b (Tm s)) (fst (adjrev (u s) ps (X s) bs i j (@zval reals ps (X s) i b (Tm s)) z0)) l) s0 (hrA r0 l)) /\
          (forall q, (i <= q < iend bs i)%nat -> tay d (fun s => snd (adjrev (u s) ps (X s) bs i j (@zval reals ps (X s) i b (Tm s)) z0) q) s0 (hrz r0 q)) /\
          (forall q, (iend bs i <= q)%nat -> hrz r0 q = gz q)).
      { eexists. split; [reflexivity|]. cbn [hrk hri hrd hrT hrF hrA hrz]. split; [reflexivity|]. repeat (split; [assumption|]). assumption. }
      assert (AE : forall s, adjrev (u s) ps (X s) (b :: bs) i j (Tm s) z0 =
         (fadj b (Tm s) (@zval reals ps (X s) i b (Tm s)) (fst (adjrev (u s) ps (X s) bs i j (@zval reals ps (X s) i b (Tm s)) z0)),
          snd (adjrev (u s) ps (X s) bs i j (@zval reals ps (X s) i b (Tm s)) z0))).
      { intros s. cbn [adjrev]. rewrite Nx, Ho'. cbn [length]. rewrite Nat.add_0_r.
        destruct b; try discriminate Hi; try (specialize (Ho' (fun _ => 0)); discriminate Ho'); reflexivity. }
      destruct GG as (r0 & E0 & GG). exists r0. split.
      { rewrite <- E0. destruct b; try discriminate Hi; try (specialize (Ho' (fun _ => 0)); discriminate Ho'); reflexivity. }
      destruct GG as (G1 & G2 & G3 & G4 & G5 & G6 & G7 & G8 & G9). repeat (split; [assumption|]).
      split. { intros l Hl. eapply tay_ext; [|apply (G7 l Hl)]. intros s. cbv beta. now rewrite AE. }
      split; auto. intros q Hq. eapply tay_ext; [|apply (G8 q Hq)]. intros s. cbv beta. now rewrite AE.
Qed.
End Trace.
