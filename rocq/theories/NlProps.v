(* C19: hess_pat never leaves out a mixed dependence.

   If the pattern returned by hess_pat does not list j in row i, then the dependent
   is additively separable in the independents i and j (j = i: affine in i) on every
   piece of the function: the second difference vanishes, and so does the mixed
   derivative.  Real arithmetic; value_at, piece, move are in NlSpec. *)
From Coq Require Import List ZArith Bool Arith Lia Reals Lra Sorted.
From Coquelicot Require Import Coquelicot.
Require Import Verif.AdModel Verif.AdSpec Verif.AdRecord Verif.AdReal Verif.SpModel
  Verif.SpSpec Verif.SpProofs Verif.NlModel Verif.NlSpec Verif.NlProofs.
Import ListNotations.
Set Implicit Arguments.
Unset Asymmetric Patterns.

(* The second difference of the m-th dependent, at x in the directions i and j *)
Definition separable_at (ps : nat -> R) (g : mem reals) (t : list (op reals)) (x : nat -> R)
  (i j : nat) : Prop :=
  forall h k m y00 y10 y01 y11,
    @piece reals ps (move x i h) g t = @piece reals ps x g t ->
    @piece reals ps (move x j k) g t = @piece reals ps x g t ->
    @piece reals ps (move (move x i h) j k) g t = @piece reals ps x g t ->
    value_at ps g t m x y00 -> value_at ps g t m (move x i h) y10 ->
    value_at ps g t m (move x j k) y01 -> value_at ps g t m (move (move x i h) j k) y11 ->
    (y11 - y10 = y01 - y00)%R.

Definition at_corner (x : nat -> R) i j h k (q : corner) : nat -> R :=
  match q with
  | C00 => x | C10 => move x i h | C01 => move x j k | C11 => move (move x i h) j k
  end.
Lemma corner_good x i j h k n : NlProofs.good i j (Some [n]) (fun q => at_corner x i j h k q n).
Proof.
  unfold NlProofs.good, flat, still_i, still_j. cbn [at_corner]. unfold move.
  split.
  - destruct (n =? i) eqn:E1, (n =? j) eqn:E2; lra.
  - intros l [= <-]. split; intros N.
    + assert (n <> i) as D by (intros ->; apply N; cbn; auto). apply Nat.eqb_neq in D. rewrite D. auto.
    + assert (n <> j) as D by (intros ->; apply N; cbn; auto). apply Nat.eqb_neq in D. rewrite D. auto.
Qed.

Lemma not_in_row ninds i j rows r : nth_error rows i = Some r -> ~ In j r ->
  forall sf, finish ninds sf = HRows rows -> ~ interact i j (hN sf).
Proof. intros E N sf F I. apply N. rewrite (@finish_row _ _ _ _ _ F E). exact I. Qed.

Lemma values_choice ps g t m x i j h k y00 y10 y01 y11 :
  value_at ps g t m x y00 -> value_at ps g t m (move x i h) y10 ->
  value_at ps g t m (move x j k) y01 -> value_at ps g t m (move (move x i h) j k) y11 ->
  exists e : corner -> fstate reals,
   (forall q, @zos_forward reals ps (at_corner x i j h k q) g t = Done (e q)) /\
   (forall q, (0 <= frc (e q))%Z) /\
   forall q, nth_error (fy (e q)) m = Some (match q with C00 => y00 | C10 => y10 | C01 => y01 | C11 => y11 end).
Proof.
  intros (e1 & A1 & B1 & D1) (e2 & A2 & B2 & D2) (e3 & A3 & B3 & D3) (e4 & A4 & B4 & D4).
  exists (fun q => match q with C00 => e1 | C10 => e2 | C01 => e3 | C11 => e4 end).
  repeat split; intros []; assumption.
Qed.

Theorem C19_safe_pattern_covers (st : nstats) (indep : nat) (ps x : nat -> R) (g : mem reals)
  (t : list (op reals)) rows i j r :
  @hess_pat_safe reals st indep t = HRows rows ->
  hpatternable (@operations reals ps x g t) [] = true ->
  nth_error rows i = Some r -> ~ In j r ->
  separable_at ps g t x i j.
Proof.
  intros H P E N h k m y00 y10 y01 y11 P1 P2 P3 V1 V2 V3 V4.
  destruct (values_choice V1 V2 V3 V4) as (e & Z & F & Y).
  unfold hess_pat_safe in H. destruct (counts_ok st indep); [|discriminate].
  assert (FL : flat_outputs e).
  { refine (@safe_sim (nOps st + nEqProd st) indep i j ps (at_corner x i j h k) (@corner_good x i j h k) t [] hinit
      (fun _ => mkF g 0 [] 3%Z []) e rows H (not_in_row _ E N) _ _ _ P _ Z F); auto.
    - intros l _. apply good_const.
    - split; auto. intros [|m'] y HY; specialize (HY C00); discriminate HY.
    - intros []; auto. }
  destruct FL as [_ FL]. specialize (FL m _ Y). unfold flat in FL. lra.
Qed.

Theorem C19_tight_pattern_covers (st : nstats) (indep : nat) (ps x : nat -> R) (g : mem reals)
  (t : list (op reals)) rows i j r :
  @hess_pat_tight reals st indep ps x g t = HRows rows ->
  hpatternable (@operations reals ps x g t) [] = true ->
  nth_error rows i = Some r -> ~ In j r ->
  separable_at ps g t x i j.
Proof.
  intros H P E N h k m y00 y10 y01 y11 P1 P2 P3 V1 V2 V3 V4.
  destruct (values_choice V1 V2 V3 V4) as (e & Z & F & Y).
  unfold hess_pat_tight in H. destruct (counts_ok st indep); [|discriminate].
  assert (FL : flat_outputs e).
  { refine (@tight_sim (nOps st + nEqProd st) indep i j ps (at_corner x i j h k) (@corner_good x i j h k) t [] hinit
      (fun _ => mkF g 0 [] 3%Z []) e rows H (not_in_row _ E N) _ _ _ P _ Z F); auto.
    - intros l _. apply good_const.
    - split; auto. intros [|m'] y HY; specialize (HY C00); discriminate HY.
    - intros []; auto. }
  destruct FL as [_ FL]. specialize (FL m _ Y). unfold flat in FL. lra.
Qed.

(* The mixed derivative: F s u is the value of the m-th dependent at
   x + s e_i + u e_j, and near x the function stays on one piece. *)
Local Open Scope R_scope.
Definition one_piece (ps : nat -> R) (g : mem reals) (t : list (op reals)) (m : nat) (x : nat -> R)
  (i j : nat) (eps : R) (F : R -> R -> R) : Prop :=
  forall s u, Rabs s < eps -> Rabs u < eps ->
    value_at ps g t m (move (move x i s) j u) (F s u) /\
    @piece reals ps (move (move x i s) j u) g t = @piece reals ps x g t.

Definition move0 x i : forall n, move x i 0 n = x n.
Proof. intros n. unfold move. destruct (n =? i); ring. Qed.

(* only the values of the independents count *)
Lemma zval_x ps x x' : (forall n, x n = x' n) -> forall i (b : bop reals) T, @zval reals ps x i b T = @zval reals ps x' i b T.
Proof. intros H i b T. destruct b; cbn [zval]; auto. now rewrite H. Qed.
Lemma zstep_x ps x x' : (forall n, x n = x' n) -> forall (o : op reals) s, @zstep reals ps x o s = @zstep reals ps x' o s.
Proof.
  intros H o s. unfold zstep. repeat rewrite (zval_x ps x x' H).
  destruct (oob (fT s) o); auto; destruct (zabort _ _); auto.
Qed.
Lemma zrun_x ps x x' : (forall n, x n = x' n) -> forall (t : list (op reals)) s, @zrun reals ps x t s = @zrun reals ps x' t s.
Proof.
  intros H. induction t as [|o t IH]; intros s; cbn [zrun]; auto. rewrite (zstep_x ps x x' H).
  destruct (zstep ps x' o s); auto.
Qed.
Lemma pieces_x ps x x' : (forall n, x n = x' n) -> forall (t : list (op reals)) s, @pieces reals ps x t s = @pieces reals ps x' t s.
Proof.
  intros H. induction t as [|o t IH]; intros s; cbn [pieces]; auto. rewrite (zstep_x ps x x' H).
  destruct (zstep ps x' o s); auto. now rewrite IH.
Qed.
Lemma value_x ps g t m x x' y : (forall n, x n = x' n) -> value_at ps g t m x y -> value_at ps g t m x' y.
Proof.
  intros H (e & Z & F). exists e. split; auto. unfold zos_forward in *. now rewrite <- (zrun_x ps x x' H).
Qed.
Lemma value_fun ps g t m x y y' : value_at ps g t m x y -> value_at ps g t m x y' -> y = y'.
Proof. intros (e & Z & _ & Y) (e' & Z' & _ & Y'). rewrite Z in Z'. injection Z' as <-. rewrite Y in Y'. now injection Y'. Qed.

Lemma mixed_zero ps g t m x i j eps F : 0 < eps -> one_piece ps g t m x i j eps F ->
  separable_at ps g t x i j ->
  is_derive (fun s => Derive (fun u => F s u) 0) 0 0.
Proof.
  intros HE OP SA.
  assert (A0 : Rabs 0 < eps) by (rewrite Rabs_R0; exact HE).
  assert (FE : forall s u, Rabs s < eps -> Rabs u < eps -> F s u = F 0 u + (F s 0 - F 0 0)).
  { intros s u Hs Hu.
    destruct (OP 0 0 A0 A0) as [V00 P00]. destruct (OP s 0 Hs A0) as [V10 P10].
    destruct (OP 0 u A0 Hu) as [V01 P01]. destruct (OP s u Hs Hu) as [V11 P11].
    assert (X00 : forall n, move (move x i 0) j 0 n = x n) by (intros n; now rewrite !move0).
    assert (X10 : forall n, move (move x i s) j 0 n = move x i s n) by (intros n; now rewrite move0).
    assert (X01 : forall n, move (move x i 0) j u n = move x j u n).
    { intros n. unfold move. destruct (n =? j), (n =? i); ring. }
    assert (G : F s u - F s 0 = F 0 u - F 0 0); [|lra].
    apply (SA s u m); auto.
    - rewrite <- P10. apply pieces_x. intros n. now rewrite X10.
    - rewrite <- P01. apply pieces_x. intros n. now rewrite X01.
    - exact (@value_x _ _ _ _ _ _ _ X00 V00).
    - exact (@value_x _ _ _ _ _ _ _ X10 V10).
    - exact (@value_x _ _ _ _ _ _ _ X01 V01). }
  apply is_derive_ext_loc with (f := fun _ => Derive (fun u => F 0 u) 0).
  - exists (mkposreal eps HE). intros s Hs. unfold ball in Hs; cbn in Hs; unfold AbsRing_ball, abs, minus, plus, opp in Hs; cbn in Hs.
    rewrite Ropp_0, Rplus_0_r in Hs.
    assert (D : Derive (fun u => F s u) 0 = Derive (fun u => F 0 u + (F s 0 - F 0 0)) 0).
    { apply Derive_ext_loc. exists (mkposreal eps HE). intros u Hu.
      unfold ball in Hu; cbn in Hu; unfold AbsRing_ball, abs, minus, plus, opp in Hu; cbn in Hu.
      rewrite Ropp_0, Rplus_0_r in Hu. now apply FE. }
    rewrite D. unfold Derive. f_equal. apply Lim_ext. intros h. f_equal. ring.
  - apply (is_derive_const (Derive (fun u => F 0 u) 0) (0:R)).
Qed.

Theorem C19_safe_mixed_derivative (st : nstats) (indep : nat) (ps x : nat -> R) (g : mem reals)
  (t : list (op reals)) rows i j r m eps F :
  @hess_pat_safe reals st indep t = HRows rows ->
  hpatternable (@operations reals ps x g t) [] = true ->
  nth_error rows i = Some r -> ~ In j r ->
  0 < eps -> one_piece ps g t m x i j eps F ->
  is_derive (fun s => Derive (fun u => F s u) 0) 0 0.
Proof.
  intros H P E N HE OP. eapply mixed_zero; eauto. eapply C19_safe_pattern_covers; eauto.
Qed.
Theorem C19_tight_mixed_derivative (st : nstats) (indep : nat) (ps x : nat -> R) (g : mem reals)
  (t : list (op reals)) rows i j r m eps F :
  @hess_pat_tight reals st indep ps x g t = HRows rows ->
  hpatternable (@operations reals ps x g t) [] = true ->
  nth_error rows i = Some r -> ~ In j r ->
  0 < eps -> one_piece ps g t m x i j eps F ->
  is_derive (fun s => Derive (fun u => F s u) 0) 0 0.
Proof.
  intros H P E N HE OP. eapply mixed_zero; eauto. eapply C19_tight_pattern_covers; eauto.
Qed.
Local Close Scope R_scope.

(* ------------------------------------------------------------------ *)
(* Shape of the pattern: symmetric, one row for each independent, columns in
   increasing order. *)
Definition lv (t : tree) (a : nat) : Prop := exists L, leaves t = Some L /\ In a L.
Definition df (t : tree) : Prop := exists L, leaves t = Some L.
Lemma lv_df t a : lv t a -> df t.
Proof. intros (L & H & _). now exists L. Qed.
Lemma df_bin l r : df (Bin l r) <-> df l /\ df r.
Proof.
  unfold df. cbn [leaves]. split.
  - intros [L H]. destruct (leaves l), (leaves r); try discriminate. eauto.
  - intros [[a ->] [b ->]]. eauto.
Qed.
Lemma lv_bin l r a : lv (Bin l r) a <-> df l /\ df r /\ (lv l a \/ lv r a).
Proof.
  unfold df, lv. cbn [leaves]. split.
  - intros (L & H & I). destruct (leaves l) as [A|], (leaves r) as [B|]; try discriminate. injection H as <-.
    rewrite in_app_iff in I. intuition eauto.
  - intros ([A HA] & [B HB] & I). rewrite HA, HB. exists (A ++ B). split; auto. rewrite in_app_iff.
    destruct I as [(L & H & I)|(L & H & I)]; [rewrite HA in H|rewrite HB in H]; injection H as <-; auto.
Qed.
Definition sym (s : hst) : Prop := forall i j, interact i j (hN s) -> interact j i (hN s).
Lemma attach_rel ninds t f s s' : attach ninds t f s = Some s' ->
  df t /\ forall i j, interact i j (hN s') <-> interact i j (hN s) \/ lv t i /\ lv f j.
Proof.
  intros A. destruct (@attach_inv _ _ _ _ _ A) as (L & HL & _ & HN). split; [now exists L|].
  intros i j. unfold interact. rewrite HN. split.
  - intros (f' & L' & I & H' & J). rewrite in_app_iff in I. destruct I as [I|I].
    + left. eauto.
    + right. apply in_map_iff in I. destruct I as (e & [= <- <-] & I). split; [now exists L|now exists L'].
  - intros [(f' & L' & I & H' & J)|((L1 & H1 & I) & (L2 & H2 & J))].
    + exists f', L'. rewrite in_app_iff. auto.
    + rewrite HL in H1. injection H1 as <-. exists f, L2. split; auto. rewrite in_app_iff. right.
      apply in_map_iff. eauto.
Qed.
Lemma attach_bound ninds t f s s' : attach ninds t f s = Some s' ->
  (forall e a, In (e, a) (hN s) -> e < ninds) -> (forall e a, In (e, a) (hN s') -> e < ninds).
Proof.
  unfold attach. destruct (leaves t) as [L|]; [|discriminate]. destruct (forallb _ L) eqn:B; [|discriminate].
  intros [= <-] H e a. cbn. rewrite in_app_iff. intros [I|I]; [eauto|].
  apply in_map_iff in I. destruct I as (e' & [= <- <-] & I). rewrite forallb_forall in B.
  specialize (B _ I). now apply Nat.ltb_lt.
Qed.

Definition fine (ninds : nat) (s : hst) : Prop :=
  sym s /\ (forall e a, In (e, a) (hN s) -> e < ninds).
Lemma fine_N ninds s s' : hN s' = hN s -> fine ninds s -> fine ninds s'.
Proof. intros E [S B]. unfold fine, sym. rewrite E. auto. Qed.
Lemma fine_two ninds t1 t2 f1 f2 s s1 s2 : attach ninds t2 f2 s1 = Some s2 -> attach ninds t1 f1 s = Some s1 ->
  (df t1 -> df t2 -> forall i j, lv t1 i /\ lv f1 j \/ lv t2 i /\ lv f2 j -> lv t1 j /\ lv f1 i \/ lv t2 j /\ lv f2 i) ->
  fine ninds s -> fine ninds s2.
Proof.
  intros A2 A1 H [S B]. destruct (@attach_rel _ _ _ _ _ A1) as [D1 R1]. destruct (@attach_rel _ _ _ _ _ A2) as [D2 R2].
  split.
  - intros i j. rewrite !R2, !R1. intros I. specialize (H D1 D2 i j). specialize (S i j). tauto.
  - eapply attach_bound; [exact A2|]. eapply attach_bound; [exact A1|]. exact B.
Qed.
Lemma fine_one ninds t s s1 : attach ninds t t s = Some s1 -> fine ninds s -> fine ninds s1.
Proof.
  intros A1 [S B]. destruct (@attach_rel _ _ _ _ _ A1) as [D1 R1]. split.
  - intros i j. rewrite !R1. intros [I|I]; [left; auto|tauto].
  - eapply attach_bound; [exact A1|]. exact B.
Qed.
Ltac unbind := repeat match goal with
  | H : bind _ _ = Some _ |- _ =>
      let s := fresh "s" in let E := fresh "E" in let E' := fresh "E" in
      apply bind_inv in H; destruct H as (s & E & E')
  end.
Ltac plain_fine := repeat match goal with
  | H : fresh _ _ _ _ = Some _ |- _ => apply fresh_inv in H; destruct H as [_ H]
  | H : cell _ _ = Some _ |- _ => apply cell_inv in H; destruct H as [_ H]
  end.
Lemma fine_hcopy ninds n arg res : forall q s, fine ninds s -> fine ninds (hcopy n arg res q s).
Proof. induction n as [|n IH]; intros q s F; cbn [hcopy]; auto. Qed.
Lemma fine_hdot cap ninds n a1 a2 res : forall q s s', hdot cap ninds n a1 a2 res q s = Some s' -> fine ninds s -> fine ninds s'.
Proof.
  induction n as [|n IH]; intros q s s' H F; cbn [hdot] in H.
  - injection H as <-. exact F.
  - unbind. apply (IH _ _ _ E0). plain_fine. eapply fine_N; [eassumption|].
    eapply fine_two; [eassumption|eassumption| |eapply fine_N; eassumption].
    intros D1 D2 i j. rewrite ?lv_bin. tauto.
Qed.
Lemma fine_haxpy cap ninds n arg a1 a2 res : forall q s s', haxpy cap ninds n arg a1 a2 res q s = Some s' -> fine ninds s -> fine ninds s'.
Proof.
  induction n as [|n IH]; intros q s s' H F; cbn [haxpy] in H.
  - injection H as <-. exact F.
  - unbind. apply (IH _ _ _ E0). plain_fine. eapply fine_N; [eassumption|].
    eapply fine_two; [eassumption|eassumption| |eapply fine_N; eassumption].
    intros D1 D2 i j. rewrite ?lv_bin. tauto.
Qed.
Lemma fine_hsafe (K : Arith) cap ninds n (b : bop K) s s' : hsafe cap ninds n b s = Some s' -> fine ninds s -> fine ninds s'.
Proof.
  intros H F. destruct b; cbn [hsafe] in H; unfold unary in H; cbv zeta in H; unbind;
    try (injection H as <-; exact F);
    try (injection H as <-; apply fine_hcopy; exact F);
    try (eapply fine_hdot; [eassumption|]); try (eapply fine_haxpy; [eassumption|]);
    plain_fine;
    try (eapply fine_N; [eassumption|]);
    try exact F;
    try (eapply fine_N; [eassumption|exact F]);
    try (eapply fine_one; [eassumption|exact F]);
    try (eapply fine_two; [eassumption|eassumption| |first [exact F|eapply fine_N; eassumption]];
         intros D1 D2 i j; rewrite ?lv_bin; tauto).
Qed.
Lemma fine_htight (K : Arith) cap ninds r n (b : bop K) T s s' : htight cap ninds r n b T s = Some s' -> fine ninds s -> fine ninds s'.
Proof.
  intros H F. destruct b; cbn [htight] in H; try (eapply fine_hsafe; [exact H|exact F]);
    repeat match type of H with context [if ?c then _ else _] => destruct c end;
    try (injection H as <-; exact F); plain_fine; eapply fine_N; eassumption.
Qed.
Lemma nsrun_fine (K : Arith) cap ninds (t : list (op K)) : forall n s rows, nsrun cap ninds t n s = HRows rows ->
  fine ninds s -> exists sf, fine ninds sf /\ finish ninds sf = HRows rows.
Proof.
  induction t as [|o t IH]; intros n s rows H F; cbn [nsrun] in H; [eauto|].
  destruct o as [b| | | | | | | | | | | | | | | | | | | |]; try discriminate H.
  assert (E : exists s', hsafe cap ninds n b s = Some s' /\ nsrun cap ninds t (if is_ind b then S n else n) s' = HRows rows).
  { destruct b; try discriminate H;
      match type of H with match ?o with _ => _ end = _ => destruct o as [s'|] eqn:E; [|discriminate] end; eauto. }
  destruct E as (s' & E & H'). eapply IH; [exact H'|]. eapply fine_hsafe; eauto.
Qed.
Lemma ntrun_fine (K : Arith) cap ninds (ps x : nat -> V K) (t : list (op K)) : forall n T s rows, ntrun cap ninds ps x t n T s = HRows rows ->
  fine ninds s -> exists sf, fine ninds sf /\ finish ninds sf = HRows rows.
Proof.
  induction t as [|o t IH]; intros n T s rows H F; cbn [ntrun] in H; [eauto|].
  destruct (oob T o); [discriminate|]. set (b := resolve T o) in *.
  assert (E : exists s', htight cap ninds (negb (is_plain o)) n b T s = Some s' /\
    ntrun cap ninds ps x t (if is_ind b then S n else n) (zval_tight ps x n b T) s' = HRows rows).
  { destruct (zabort b T); [destruct b; discriminate H|].
    destruct (htight cap ninds (negb (is_plain o)) n b T s) as [s'|]; [|destruct b; discriminate H].
    exists s'. split; auto. destruct b; try discriminate H; exact H. }
  destruct E as (s' & E & H'). eapply IH; [exact H'|]. eapply fine_htight; eauto.
Qed.

Lemma ins_lb n e : forall l, List.Forall (fun j => n < j) l -> n < e -> List.Forall (fun j => n < j) (ins e l).
Proof. intros l H E. rewrite Forall_forall in *. intros a. rewrite ins_in. intros [->|I]; auto. Qed.
Lemma ins_sorted e : forall l, StronglySorted lt l -> StronglySorted lt (ins e l).
Proof.
  induction l as [|y l IH]; intros S; cbn [ins]; [constructor; constructor|].
  apply StronglySorted_inv in S as S'. destruct S' as [S1 F1].
  destruct (y <? e) eqn:E1; [|destruct (e <? y) eqn:E2]; auto.
  - constructor; [auto|]. apply ins_lb; auto. now apply Nat.ltb_lt.
  - apply Nat.ltb_lt in E2. constructor; auto. constructor; auto. eapply Forall_impl; [|exact F1]. cbn. lia.
Qed.
Lemma fold_sorted : forall L l, StronglySorted lt l -> StronglySorted lt (fold_left (fun b e => ins e b) L l).
Proof. induction L as [|e L IH]; intros l S; cbn [fold_left]; auto. apply IH. now apply ins_sorted. Qed.
Lemma gather_sorted i : forall N acc r, gather i N acc = Some r -> StronglySorted lt acc -> StronglySorted lt r.
Proof.
  induction N as [|[e f] N IH]; intros acc r H S; cbn [gather] in H.
  - now injection H as <-.
  - destruct (e =? i); [|eauto]. destruct (leaves f); [|discriminate]. eapply IH; [exact H|]. now apply fold_sorted.
Qed.
Lemma all_rows_len N : forall n k rows, all_rows n k N = Some rows -> length rows = n.
Proof.
  induction n as [|n IH]; intros k rows H; cbn [all_rows] in H; [now injection H as <-|].
  destruct (gather k N []); [|discriminate]. destruct (all_rows n (S k) N) eqn:A; [|discriminate].
  injection H as <-. cbn. f_equal. eauto.
Qed.

(* a set of rows that is symmetric, sorted and within range *)
Definition shape_ok (indep : nat) (rows : list (list nat)) : Prop :=
  length rows = indep /\
  (forall i r, nth_error rows i = Some r ->
     StronglySorted lt r /\ forall j, In j r -> j < indep /\
       exists r', nth_error rows j = Some r' /\ In i r').
Lemma finish_shape ninds sf rows : fine ninds sf -> finish ninds sf = HRows rows -> shape_ok ninds rows.
Proof.
  intros [S B] F. pose proof F as F0. unfold finish in F.
  destruct (all_rows ninds 0 (hN sf)) as [rs|] eqn:A; [|discriminate]. injection F as <-.
  split; [eapply all_rows_len; exact A|].
  intros i r E. split.
  - pose proof (@all_rows_nth _ _ _ _ _ _ A E) as G. eapply gather_sorted; [exact G|constructor].
  - intros j J. rewrite (@finish_row _ _ _ _ _ F0 E) in J. apply S in J as J'.
    assert (L : j < ninds). { destruct J' as (f & L & I & _). eauto. }
    split; auto. destruct (nth_error rs j) as [r'|] eqn:E'.
    + exists r'. split; auto. now rewrite (@finish_row _ _ _ _ _ F0 E').
    + exfalso. apply nth_error_None in E'. rewrite (@all_rows_len _ _ _ _ A) in E'. lia.
Qed.
Lemma fine_init ninds : fine ninds hinit.
Proof. split; [intros i j (f & L & [] & _)|intros e a []]. Qed.

Theorem C19_safe_pattern_shape (K : Arith) st indep (t : list (op K)) rows :
  hess_pat_safe st indep t = HRows rows -> shape_ok indep rows.
Proof.
  unfold hess_pat_safe. destruct (counts_ok st indep); [|discriminate]. intros H.
  destruct (@nsrun_fine _ _ _ _ _ _ _ H (fine_init indep)) as (sf & F & E). eapply finish_shape; eauto.
Qed.
Theorem C19_tight_pattern_shape (K : Arith) st indep ps x g (t : list (op K)) rows :
  hess_pat_tight st indep ps x g t = HRows rows -> shape_ok indep rows.
Proof.
  unfold hess_pat_tight. destruct (counts_ok st indep); [|discriminate]. intros H.
  destruct (@ntrun_fine _ _ _ _ _ _ _ _ _ _ H (fine_init indep)) as (sf & F & E). eapply finish_shape; eauto.
Qed.

(* ------------------------------------------------------------------ *)
(* The sweeps do not touch memory they may not: a trace in which every location is
   assigned before it is used.  Excluded are the operations for which the sweep
   leaves a cell uninitialised (safe: fmin, condassign, condeqassign with three
   operands), vec_dot and vec_axpy, and gen_quad, which is not implemented; in
   tight mode also condassign with two operands (not followed by the values the
   sweep computes); the theorems _refuted below show why. *)
Definition puts (K : Arith) (b : bop K) : list nat :=
  match b with
  | SinOp _ _ _ r | CosOp _ _ _ r => [r]        (* nothing for the helper *)
  | SetRef _ _ _ | TakeStock _ _ _ _ => []
  | _ => bwrites b
  end.
Definition kept_out (K : Arith) (tight : bool) (b : bop K) : bool :=
  match b with
  | MinOp _ _ _ _ _ | CondAssign _ _ _ _ _ _ | CondEqAssign _ _ _ _ _ _ => negb tight
  | VecDot _ _ _ _ _ | VecAxpy _ _ _ _ _ _ | GenQuad _ _ _ _ _ _ => true
  | CondAssignS _ _ _ _ _ | CondEqAssignS _ _ _ _ _ => tight
  | _ => false
  end.
(* W: locations assigned so far *)
Fixpoint assigned (K : Arith) (tight : bool) (bs : list (bop K)) (W : list nat) : bool :=
  match bs with
  | [] => true
  | b :: bs' =>
      negb (kept_out tight b) && forallb (fun l => mem_nat l W) (breads b) &&
      assigned tight bs' (puts b ++ W)
  end.

Section Defined.
Variable K : Arith.
Variables cap ninds : nat.
Definition okt (t : tree) : Prop := exists L, leaves t = Some L /\ List.Forall (fun e => e < ninds) L.
Definition okst (W : list nat) (s : hst) : Prop :=
  (forall l, In l W -> okt (hA s l)) /\ (forall e f, In (e, f) (hN s) -> okt f).
Definition cells (b : bop K) : nat :=
  match b with EqPlusProd _ _ _ _ | EqMinProd _ _ _ _ => 2 | _ => 1 end.

Lemma okt_bin l r : okt l -> okt r -> okt (Bin l r).
Proof.
  intros (a & A & FA) (b & B & FB). exists (a ++ b). cbn [leaves]. rewrite A, B. split; auto.
  apply Forall_app. auto.
Qed.
Lemma okt_un l : okt l -> okt (Un l).
Proof. intros (a & A & FA). exists a. auto. Qed.
Lemma okt_nil : okt Nil.
Proof. exists []. split; [reflexivity|constructor]. Qed.
Lemma okt_leaf i : i < ninds -> okt (Leaf i).
Proof. intros H. exists [i]. split; [reflexivity|repeat constructor; auto]. Qed.
Lemma okst_point W s res t : okst W s -> okt t -> okst (res :: W) (point res t s).
Proof.
  intros [A N] T. split; [|exact N]. intros l [<-|I]; cbn; unfold aset.
  - now rewrite Nat.eqb_refl.
  - destruct (l =? res); auto.
Qed.
Lemma def_attach W s t f : okst W s -> okt t -> okt f ->
  exists s', attach ninds t f s = Some s' /\ okst W s' /\ hk s' = hk s /\ hA s' = hA s.
Proof.
  intros [A N] (L & HL & FL) OF. unfold attach. rewrite HL.
  assert (forallb (fun e => e <? ninds) L = true) as ->.
  { apply forallb_forall. rewrite Forall_forall in FL. intros e I. apply Nat.ltb_lt. auto. }
  eexists. split; [reflexivity|]. split; [|auto]. split; [exact A|]. cbn. intros e g I.
  rewrite in_app_iff in I. destruct I as [I|I]; [eauto|]. apply in_map_iff in I. destruct I as (? & [= <- <-] & _). auto.
Qed.
Lemma def_cell W s : okst W s -> S (hk s) <= cap ->
  exists s', cell cap s = Some s' /\ okst W s' /\ hk s' = S (hk s) /\ hA s' = hA s.
Proof.
  intros O C. unfold cell. destruct (hk s <? cap) eqn:E; [|apply Nat.ltb_ge in E; lia].
  eexists. split; [reflexivity|]. auto.
Qed.
Lemma def_fresh W s res t : okst W s -> okt t -> S (hk s) <= cap ->
  exists s', fresh cap res t s = Some s' /\ okst (res :: W) s' /\ hk s' = S (hk s).
Proof.
  intros O T C. destruct (@def_cell W s O C) as (s1 & E & O1 & K1 & _).
  exists (point res t s1). unfold fresh. rewrite E. split; [reflexivity|]. split; [|exact K1].
  now apply okst_point.
Qed.
Definition steps (W : list nat) (b : bop K) (s : hst) (o : option hst) : Prop :=
  exists s', o = Some s' /\ okst (puts b ++ W) s' /\ hk s' <= hk s + cells b.
Lemma okst_sub W W' s : okst W s -> (forall l, In l W' -> In l W) -> okst W' s.
Proof. intros [A N] H. split; auto. Qed.
Lemma hcopy_k n arg res : forall q s, hk (hcopy n arg res q s) = hk s.
Proof. induction n; intros; cbn [hcopy]; auto. now rewrite IHn. Qed.
Lemma hcopy_N' n arg res : forall q s, hN (hcopy n arg res q s) = hN s.
Proof. induction n; intros; cbn [hcopy]; auto. now rewrite IHn. Qed.
(* copying keeps the good locations good and makes the target good *)
Lemma hcopy_ok n arg res : forall q s (P : nat -> Prop),
  (forall l, P l -> okt (hA s l)) -> (forall m, q <= m < q + n -> P (arg + m)) ->
  forall l, P l \/ (exists m, q <= m < q + n /\ l = res + m) -> okt (hA (hcopy n arg res q s) l).
Proof.
  induction n as [|n IH]; intros q s P H A l Hl; cbn [hcopy].
  - destruct Hl as [Hl|(m & Hm & _)]; [auto|lia].
  - apply IH with (P := fun l => P l \/ l = res + q).
    + intros l' Hl'. cbn. unfold aset. destruct (l' =? res + q) eqn:E.
      * apply H. apply A. lia.
      * destruct Hl' as [Hl'|Hl']; [auto|]. apply Nat.eqb_neq in E. contradiction.
    + intros m Hm. left. apply A. lia.
    + destruct Hl as [Hl|(m & Hm & E)]; auto.
      destruct (Nat.eq_dec m q) as [->|D]; [auto|]. right. exists m. lia.
Qed.

Lemma def_safe W i (b : bop K) s : kept_out false b = false ->
  (forall l, In l (breads b) -> In l W) -> okst W s -> hk s + cells b <= cap ->
  (is_ind b = true -> i < ninds) -> steps W b s (hsafe cap ninds i b s).
Proof.
  intros KO RD O C IND.
  assert (OA : forall l, In l (breads b) -> okt (hA s l)) by (intros l Hl; apply O; auto).
  destruct b; cbn [kept_out negb] in KO; try discriminate KO; cbn [hsafe cells breads is_ind] in *;
    unfold steps; cbn [puts bwrites app cells];
    (* nothing happens *)
    try (exists s; split; [reflexivity|split; [|lia]]; first [exact O|eapply okst_sub; [exact O|]; intros l' [<-|Hl']; auto; apply RD; cbn; auto]; fail);
    (* copy of a pointer *)
    try (eexists; split; [reflexivity|split; [apply okst_point; [exact O|apply OA; cbn; auto]|cbn; lia]]; fail);
    (* new cell *)
    try (match goal with |- exists s', fresh cap ?r ?t s = Some s' /\ _ =>
           destruct (@def_fresh W s r t O) as (s1 & E1 & O1 & K1);
             [first [apply okt_nil|apply okt_leaf; apply IND; reflexivity|apply okt_bin; apply OA; cbn; auto]|lia|
              exists s1; split; [exact E1|split; [exact O1|lia]]] end; fail);
    try (unfold unary; match goal with |- exists s', bind (attach ninds ?t ?t s) (fresh cap ?r ?t) = Some s' /\ _ =>
           assert (OT : okt t) by (apply okt_un; apply OA; cbn; auto);
           destruct (@def_attach W s t t O OT OT) as (s1 & E1 & O1 & K1 & A1); rewrite E1; cbn [bind];
           destruct (@def_fresh W s1 r t O1 OT) as (s2 & E2 & O2 & K2); [lia|];
           exists s2; split; [exact E2|split; [exact O2|lia]] end; fail);
    try (match goal with |- exists s', bind (bind (attach ninds ?t1 ?f1 s) (attach ninds ?t2 ?f2)) (fresh cap ?r ?t) = Some s' /\ _ =>
           assert (OT1 : okt t1) by (apply OA; cbn; auto); assert (OT2 : okt t2) by (apply OA; cbn; auto);
           assert (OF1 : okt f1) by (first [assumption|apply okt_bin; assumption]);
           assert (OF2 : okt f2) by (first [assumption|apply okt_bin; assumption]);
           assert (OT : okt t) by (first [assumption|apply okt_bin; assumption]);
           destruct (@def_attach W s t1 f1 O OT1 OF1) as (s1 & E1 & O1 & K1 & A1); rewrite E1; cbn [bind];
           destruct (@def_attach W s1 t2 f2 O1 OT2 OF2) as (s2 & E2 & O2 & K2 & A2); rewrite E2; cbn [bind];
           destruct (@def_fresh W s2 r t O2 OT) as (s3 & E3 & O3 & K3); [lia|];
           exists s3; split; [exact E3|split; [exact O3|lia]] end; fail);
    try (match goal with |- exists s', bind (bind (bind (cell cap s) (attach ninds ?t1 ?f1)) (attach ninds ?t2 ?f2)) (fresh cap ?r (Bin ?u ?t)) = Some s' /\ _ =>
           assert (OT1 : okt t1) by (apply OA; cbn; auto); assert (OT2 : okt t2) by (apply OA; cbn; auto);
           assert (OU : okt u) by (apply OA; cbn; auto);
           assert (OF1 : okt f1) by (first [assumption|apply okt_bin; assumption]);
           assert (OF2 : okt f2) by (first [assumption|apply okt_bin; assumption]);
           assert (OT : okt (Bin u t)) by (apply okt_bin; [assumption|apply okt_bin; assumption]);
           destruct (@def_cell W s O) as (s0 & E0 & O0 & K0 & A0); [lia|]; rewrite E0; cbn [bind];
           destruct (@def_attach W s0 t1 f1 O0 OT1 OF1) as (s1 & E1 & O1 & K1 & A1); rewrite E1; cbn [bind];
           destruct (@def_attach W s1 t2 f2 O1 OT2 OF2) as (s2 & E2 & O2 & K2 & A2); rewrite E2; cbn [bind];
           destruct (@def_fresh W s2 r (Bin u t) O2 OT) as (s3 & E3 & O3 & K3); [lia|];
           exists s3; split; [exact E3|split; [exact O3|lia]] end; fail).
  (* vec_copy *)
  eexists; split; [reflexivity|]. split; [|rewrite hcopy_k; lia].
  split.
  - intros l Hl. apply hcopy_ok with (P := fun l => In l W).
    + apply O.
    + intros m Hm. apply RD. apply in_seq. lia.
    + rewrite in_app_iff, in_seq in Hl. destruct Hl as [Hl|Hl]; [|auto]. right. exists (l - res). lia.
  - intros e f. rewrite hcopy_N'. apply O.
Qed.
Lemma def_tight W r i (b : bop K) T s : kept_out true b = false ->
  (forall l, In l (breads b) -> In l W) -> okst W s -> hk s + cells b <= cap ->
  (is_ind b = true -> i < ninds) -> steps W b s (htight cap ninds r i b T s).
Proof.
  intros KO RD O C IND.
  assert (OA : forall l, In l (breads b) -> okt (hA s l)) by (intros l Hl; apply O; auto).
  destruct b; cbn [kept_out negb] in KO; try discriminate KO; cbn [htight];
    try (apply def_safe; auto; fail); cbn [cells breads] in *;
    unfold steps; cbn [puts bwrites app cells];
    repeat match goal with |- context [if ?c then _ else _] => destruct c end;
    try (eexists; split; [reflexivity|split; [apply okst_point; [exact O|apply OA; cbn; auto]|cbn; lia]]; fail);
    match goal with |- exists s', fresh cap ?r ?t s = Some s' /\ _ =>
           destruct (@def_fresh W s r t O) as (s1 & E1 & O1 & K1);
             [first [apply okt_un; apply OA; cbn; auto|apply okt_bin; apply OA; cbn; auto]|lia|
              exists s1; split; [exact E1|split; [exact O1|lia]]] end.
Qed.

Lemma gather_def i : forall N acc, (forall e f, In (e, f) N -> okt f) -> exists r, gather i N acc = Some r.
Proof.
  induction N as [|[e f] N IH]; intros acc H; cbn [gather]; [eauto|].
  destruct (e =? i).
  - destruct (H e f) as (L & -> & _); [cbn; auto|]. apply IH. intros; eapply H; cbn; eauto.
  - apply IH. intros; eapply H; cbn; eauto.
Qed.
Lemma finish_def W s : okst W s -> exists rows, finish ninds s = HRows rows.
Proof.
  intros [_ N]. unfold finish.
  assert (A : forall n k, exists rs, all_rows n k (hN s) = Some rs).
  { induction n as [|n IH]; intros k; cbn [all_rows]; [eauto|].
    destruct (gather_def k (hN s) [] N) as [r ->]. destruct (IH (S k)) as [rs ->]. eauto. }
  destruct (A ninds 0) as [rs ->]. eauto.
Qed.
Lemma cells_op T (o : op K) : cells (resolve T o) = 1 + eq_prods o.
Proof. destruct o as [b| | | | | | | | | | | | | | | | | | | |]; try reflexivity. destruct b; reflexivity. Qed.
Lemma ind_op T (o : op K) : ind_count o = if is_ind (resolve T o) then 1 else 0.
Proof. destruct o as [b| | | | | | | | | | | | | | | | | | | |]; try reflexivity. destruct b; reflexivity. Qed.
Lemma assigned_inv m (b : bop K) bs W : assigned m (b :: bs) W = true ->
  kept_out m b = false /\ (forall l, In l (breads b) -> In l W) /\ assigned m bs (puts b ++ W) = true.
Proof.
  cbn [assigned]. rewrite !andb_true_iff. intros ((A & B) & C). split; [now apply negb_true_iff|].
  split; auto. rewrite forallb_forall in B. intros l Hl. apply mem_nat_iff. auto.
Qed.
Lemma def_nsrun : forall (bs : list (bop K)) i W s, assigned false bs W = true -> okst W s ->
  hk s + (length bs + total (@eq_prods K) (map (@Plain K) bs)) <= cap ->
  i + total (@ind_count K) (map (@Plain K) bs) <= ninds ->
  exists rows, nsrun cap ninds (map (@Plain K) bs) i s = HRows rows.
Proof.
  induction bs as [|b bs IH]; intros i W s A O C I.
  - cbn [map nsrun]. eapply finish_def; eauto.
  - apply assigned_inv in A. destruct A as (KO & RD & A).
    pose proof (@cells_op (fun _ => zero K) (Plain b)) as CE. pose proof (@ind_op (fun _ => zero K) (Plain b)) as IE.
    cbn [resolve] in CE, IE. cbn [map length total fold_right] in C, I.
    fold (total (@eq_prods K) (map (@Plain K) bs)) in C. fold (total (@ind_count K) (map (@Plain K) bs)) in I.
    destruct (@def_safe W i b s KO RD O) as (s' & E & O' & K'); [lia|intros H; rewrite H in IE; lia|].
    assert (N : nsrun cap ninds (map (@Plain K) (b :: bs)) i s =
                nsrun cap ninds (map (@Plain K) bs) (if is_ind b then S i else i) s').
    { cbn [map nsrun]. rewrite E. destruct b; try reflexivity. discriminate KO. }
    rewrite N. eapply IH; [exact A|exact O'|lia|]. destruct (is_ind b); lia.
Qed.
Lemma tight_same b (ps x : nat -> V K) i T : kept_out true b = false -> zval_tight ps x i b T = zval ps x i b T.
Proof. intros L. destruct b; cbn in *; auto; discriminate. Qed.
Lemma def_ntrun (ps x : nat -> V K) : forall (t : list (op K)) st e W s,
  assigned true (resolved ps x t st) W = true -> okst W s ->
  zrun ps x t st = Done e -> (0 <= frc e)%Z ->
  hk s + (length t + total (@eq_prods K) t) <= cap -> fi st + total (@ind_count K) t <= ninds ->
  exists rows, ntrun cap ninds ps x t (fi st) (fT st) s = HRows rows.
Proof.
  induction t as [|o t IH]; intros st e W s A O Z FR C I.
  - cbn [ntrun]. eapply finish_def; eauto.
  - destruct (@zrun_step K ps o x t st e Z FR) as (st1 & ZS & Z1). clear Z.
    destruct (@zstep_inl K _ _ _ _ _ ZS) as (OB & ZA & T1 & I1 & _).
    cbn [resolved] in A. rewrite ZS in A. apply assigned_inv in A. destruct A as (KO & RD & A).
    pose proof (@cells_op (fT st) o) as CE. pose proof (@ind_op (fT st) o) as IE.
    cbn [length total fold_right] in C, I.
    fold (total (@eq_prods K) t) in C. fold (total (@ind_count K) t) in I.
    cbn [ntrun]. rewrite OB, ZA. set (b := resolve (fT st) o) in *.
    destruct (@def_tight W (negb (is_plain o)) (fi st) b (fT st) s KO RD O) as (s' & E & O' & K'); [lia|intros H; rewrite H in IE; lia|].
    rewrite E, (@tight_same b ps x (fi st) (fT st) KO), <- T1, <- I1.
    destruct (@IH st1 e _ s' A O' Z1 FR) as [rows HR]; [lia| |].
    { rewrite I1. destruct (is_ind b); lia. }
    exists rows. destruct b; try exact HR. discriminate KO.
Qed.
End Defined.


Lemma counts_recorded (K : Arith) marks (t : list (op K)) : total (@dep_count K) t = 1 ->
  counts_ok (recorded_stats marks t) (total (@ind_count K) t) = true.
Proof. intros D. unfold counts_ok, recorded_stats. cbn [nDep nInd]. now rewrite D, !Nat.eqb_refl. Qed.
Lemma okst_init ninds : okst ninds [] hinit.
Proof. split; [intros l []|intros e f []]. Qed.

(* a function with one dependent, recorded with the statistics the code counts *)
Theorem C19_safe_pattern_defined (K : Arith) marks (bs : list (bop K)) :
  let t := map (@Plain K) bs in
  assigned false bs [] = true -> total (@dep_count K) t = 1 ->
  exists rows, hess_pat_safe (recorded_stats marks t) (total (@ind_count K) t) t = HRows rows.
Proof.
  intros t A D. unfold hess_pat_safe. rewrite (counts_recorded marks t D).
  eapply def_nsrun; [exact A|apply okst_init| |].
  - cbn. unfold t. rewrite map_length. lia.
  - unfold t. lia.
Qed.
Theorem C19_tight_pattern_defined (K : Arith) marks ps x g (t : list (op K)) e :
  assigned true (operations ps x g t) [] = true -> total (@dep_count K) t = 1 ->
  zos_forward ps x g t = Done e -> (0 <= frc e)%Z ->
  exists rows, hess_pat_tight (recorded_stats marks t) (total (@ind_count K) t) ps x g t = HRows rows.
Proof.
  intros A D Z FR. unfold hess_pat_tight. rewrite (counts_recorded marks t D).
  eapply (@def_ntrun K _ _ ps x t (mkF g 0 [] 3%Z [])); [exact A|apply okst_init|exact Z|exact FR| |].
  - cbn. lia.
  - cbn [fi]. lia.
Qed.
