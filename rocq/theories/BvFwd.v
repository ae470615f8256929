(* Proofs for C47: forward propagation of bit patterns. *)
Require Import List ZArith NArith Bool Arith Lia.
Require Import Verif.AdModel Verif.AdSpec Verif.SpSpec Verif.SpProofs Verif.BvModel Verif.BvSpec
  Verif.BvBits.
Import ListNotations.
Set Implicit Arguments.

(* ------------------------------------------------------------------ *)
(* Strips.                                                              *)
Section Strips.
Variable wb : nat.
Hypothesis wb1 : 1 <= wb.
Variables (n m : nat) (ideal : nat -> list bool).
Notation bs := (bits_per_strip wb n).
Notation dep k := (fun c => nth k (ideal c) false).

Lemma filter_map_add f s : forall l i, 
  filter f (seq (s + i) l) = map (fun j => s + j) (filter (fun j => f (s + j)) (seq i l)).
Proof.
  induction l as [|l IH]; intros i; cbn [seq filter map]; auto.
  replace (S (s + i)) with (s + S i) by lia. rewrite IH.
  destruct (f (s + i)); reflexivity.
Qed.

Lemma cset_same c k r : cset c k r k = Some r.
Proof. unfold cset. now rewrite Nat.eqb_refl. Qed.
Lemma cset_other c k r j : j <> k -> cset c k r j = c j.
Proof. intros H. unfold cset. apply Nat.eqb_neq in H. now rewrite H. Qed.

(* the state after s strips *)
Definition done (lim : nat) (c : crstore) (k : nat) : Prop :=
  columns (c k) = filter (dep k) (seq 0 lim) /\ c k <> Some [].

Lemma extract_one s k r c c' : 
  (forall j, j < bs -> colbit wb j r = nth k (ideal (s * bs + j)) false) ->
  done (s * bs) c k ->
  extract_fwd s (s * bs) k (scan wb bs 0 0 (msb wb) r) c = Some c' ->
  done (S s * bs) c' k /\ forall j, j <> k -> c' j = c j.
Proof.
  intros Hr [Hc Hn] E. rewrite scan_filter in E by (auto using at_start).
  assert (Q : filter (dep k) (seq (s * bs) bs) =
              map (fun j => s * bs + j) (filter (fun j => colbit wb j r) (seq 0 bs))).
  { rewrite <- (Nat.add_0_r (s * bs)) at 1. rewrite filter_map_add. f_equal.
    apply filter_ext_in. intros j Hj. apply in_seq in Hj. rewrite Hr by lia. reflexivity. }
  assert (QQ : filter (dep k) (seq 0 (S s * bs)) = columns (c k) ++
    map (fun j => s * bs + j) (filter (fun j => colbit wb j r) (seq 0 bs))).
  { rewrite Hc, <- Q, <- filter_app. f_equal. cbn [Nat.mul].
    rewrite (Nat.add_comm bs), seq_app. reflexivity. }
  unfold done. rewrite QQ. clear Q QQ.
  set (nz := filter (fun j => colbit wb j r) (seq 0 bs)) in *. clearbody nz.
  unfold extract_fwd in E. destruct nz as [|z nz].
  - injection E as <-. cbn [map]. rewrite app_nil_r. auto.
  - destruct (Nat.eqb_spec s 0) as [->|Ns].
    + injection E as <-. cbn [Nat.mul] in *. cbn [seq filter] in Hc.
      rewrite cset_same, Hc. cbn. repeat split; [congruence|]. intros. now apply cset_other.
    + destruct (c k) as [old|]; [|discriminate E]. injection E as <-.
      rewrite cset_same. cbn [columns]. repeat split.
      * intros [= Q]. destruct old; discriminate Q.
      * intros. now apply cset_other.
Qed.

Lemma extract_all s : forall rows k c c',
  (forall i r, nth_error rows i = Some r -> forall j, j < bs ->
     colbit wb j r = nth (k + i) (ideal (s * bs + j)) false) ->
  (forall i, i < length rows -> done (s * bs) c (k + i)) ->
  extract_rows wb n s k rows c = Some c' ->
  (forall i, i < length rows -> done (S s * bs) c' (k + i)) /\
  (forall j, j < k -> c' j = c j).
Proof.
  induction rows as [|r rows IH]; intros k c c' Hr Hc E; cbn [extract_rows] in E.
  - injection E as <-. split; auto. cbn. intros. lia.
  - destruct (extract_fwd s (s * bs) k (scan wb bs 0 0 (msb wb) r) c) as [c1|] eqn:E1; [|discriminate E].
    destruct (@extract_one s k r c c1) as [D F]; auto.
    { intros j Hj. rewrite <- (Nat.add_0_r k) at 1. apply Hr; auto. }
    { rewrite <- (Nat.add_0_r k). apply Hc. cbn. lia. }
    destruct (IH (S k) c1 c') as [D' F']; auto.
    { intros i q Hi j Hj. replace (S k + i) with (k + S i) by lia. now apply Hr. }
    { intros i Hi. replace (S k + i) with (k + S i) by lia.
      specialize (Hc (S i) ltac:(cbn; lia)). unfold done in *. rewrite F by lia. exact Hc. }
    split.
    + intros [|i] Hi.
      * rewrite Nat.add_0_r. unfold done in *. rewrite F' by lia. exact D.
      * replace (k + S i) with (S k + i) by lia. apply D'. cbn in Hi. lia.
    + intros j Hj. rewrite F' by lia. apply F. lia.
Qed.

Variable sweep : (nat -> row) -> swres row.
Hypothesis sweep_ok : forall s rows, sweep (seed wb n s) = SwRows rows ->
  length rows = m /\
  forall j, j < bs -> map (colbit wb j) rows = ideal (s * bs + j).

Lemma nth_bit rows j k r d : map (colbit wb j) rows = d -> nth_error rows k = Some r ->
  colbit wb j r = nth k d false.
Proof.
  intros <-. revert k. induction rows as [|a rows IH]; intros [|k] E; cbn in *; try discriminate.
  - now injection E as ->.
  - auto.
Qed.

Lemma strips_fwd_rows : forall todo s c c',
  (forall k, k < m -> done (s * bs) c k) ->
  strips_fwd wb sweep n todo s c = BvRows c' ->
  forall k, k < m -> done ((s + todo) * bs) c' k.
Proof.
  induction todo as [|todo IH]; intros s c c' H E k Hk; cbn [strips_fwd] in E.
  - injection E as <-. rewrite Nat.add_0_r. auto.
  - destruct (sweep (seed wb n s)) as [rows| | |] eqn:Es; try discriminate E.
    destruct (sweep_ok Es) as [L M].
    destruct (extract_rows wb n s 0 rows c) as [c1|] eqn:E1; [|discriminate E].
    replace (s + S todo) with (S s + todo) by lia.
    refine (IH (S s) c1 c' _ E k Hk). intros i Hi.
    destruct (@extract_all s rows 0 c c1) as [D _]; auto.
    + intros k' r Hr j Hj. eapply nth_bit; eauto.
    + intros k' Hk'. apply H. lia.
    + apply (D i). lia.
Qed.

(* first strip: nothing can go wrong *)
Lemma extract_rows_first : forall rows k c, exists c', extract_rows wb n 0 k rows c = Some c'.
Proof.
  induction rows as [|r rows IH]; intros k c; cbn [extract_rows]; eauto.
  unfold extract_fwd. destruct (scan _ _ _ _ _ _); cbn [Nat.eqb]; apply IH.
Qed.

Lemma filter_none A f (l : list A) : (forall a, In a l -> f a = false) -> filter f l = [].
Proof.
  induction l as [|a l IH]; cbn; auto. intros H. rewrite (H a) by auto. auto.
Qed.
Lemma filter_below k lim : (forall c, n <= c -> nth k (ideal c) false = false) -> n <= lim ->
  filter (dep k) (seq 0 lim) = filter (dep k) (seq 0 n).
Proof.
  intros H L. replace lim with (n + (lim - n)) by lia. rewrite seq_app, filter_app.
  rewrite (@filter_none _ _ (seq (0 + n) (lim - n))), app_nil_r; auto.
  intros a Ha. apply in_seq in Ha. apply H. lia.
Qed.

Theorem strips_pattern c' : (forall k c, n <= c -> nth k (ideal c) false = false) ->
  strips_fwd wb sweep n (batches wb n) 0 cnull = BvRows c' ->
  forall k, k < m -> done n c' k.
Proof.
  intros Hi E k Hk. unfold done.
  rewrite <- (@filter_below k (batches wb n * bs)); auto using strips_cover.
  apply (@strips_fwd_rows (batches wb n) 0 cnull c'); auto.
  intros. unfold done. cbn. split; auto. discriminate.
Qed.
End Strips.

Lemma filter_seq_increasing f : forall l i, increasing (filter f (seq i l)) /\
  (forall j, In j (filter f (seq i l)) -> i <= j < i + l).
Proof.
  intros l i. split.
  - revert i. induction l as [|l IH]; intros i; cbn [seq filter]; [exact I|].
    specialize (IH (S i)). destruct (f i); auto.
    destruct (filter f (seq (S i) l)) as [|b r] eqn:E; [exact I|].
    split; auto. assert (In b (seq (S i) l)) as Q.
    { eapply proj1. apply filter_In with (f := f). rewrite E. now left. }
    apply in_seq in Q. lia.
  - intros j H. apply filter_In in H. destruct H as [H _]. now apply in_seq.
Qed.

(* ------------------------------------------------------------------ *)
(* Dependence, column by column.                                        *)
Section Cover.
Variable K : Arith.
Notation val := (V K).
Notation mem := (mem K).
Notation op := (op K).
Notation bop := (bop K).
Variables (ps x x' : nat -> val) (n : nat).

Definition sbit (c i : nat) : bool := Nat.eqb c i && Nat.ltb i n.
Notation bsafe := (@fsafe bool false orb K bmin orb).
Notation btight := (@ftight bool false orb K bmin orb orb).

Definition binv (B : nat -> pats bool) (T T' : mem) : Prop :=
  forall l, (forall c, B c l = true -> x c = x' c) -> T l = T' l.

Lemma binv_w (B : nat -> pats bool) (T T' : mem) res (r : nat -> bool) v v' :
  binv B T T' -> ((forall c, r c = true -> x c = x' c) -> v = v') ->
  binv (fun c => pset (B c) res (r c)) (upd T res v) (upd T' res v').
Proof.
  intros I Hv l Hl. unfold upd, pset in *. destruct (Nat.eqb l res) eqn:E; auto.
Qed.
Lemma binv_keep (B : nat -> pats bool) (T T' : mem) res v v' :
  binv B T T' -> ((forall c, B c res = true -> x c = x' c) -> v = v') ->
  binv B (upd T res v) (upd T' res v').
Proof.
  intros I Hv l Hl. unfold upd in *. destruct (Nat.eqb_spec l res); subst; auto.
Qed.

Lemma binv_copy k arg res : forall q B T T', binv B T T' ->
  binv (fun c => pcopy k arg res q (B c)) (vcopy k arg res q T) (vcopy k arg res q T').
Proof.
  induction k; intros q B T T' I; cbn [pcopy vcopy]; auto.
  apply (IHk (S q) (fun c => pset (B c) (res + q) (B c (arg + q)))). apply binv_w; auto.
Qed.
Lemma binv_dot k a1 a2 res : forall q B T T', binv B T T' ->
  binv (fun c => pdot orb k a1 a2 res q (B c)) (vdot k a1 a2 res q T) (vdot k a1 a2 res q T').
Proof.
  induction k; intros q B T T' I; cbn [pdot vdot]; auto.
  apply (IHk (S q) (fun c => pset (B c) res (B c res || (B c (a1 + q) || B c (a2 + q))))).
  apply binv_w; auto. intros H.
  rewrite (I res), (I (a1 + q)), (I (a2 + q)); auto;
    intros c Hc; apply H; rewrite Hc; now rewrite ?orb_true_r.
Qed.
Lemma binv_axpy k arg a1 a2 res : forall q B T T', binv B T T' ->
  binv (fun c => paxpy orb k arg a1 a2 res q (B c)) (vaxpy k arg a1 a2 res q T)
       (vaxpy k arg a1 a2 res q T').
Proof.
  induction k; intros q B T T' I; cbn [paxpy vaxpy]; auto.
  apply (IHk (S q) (fun c => pset (B c) (res + q) (B c (a2 + q) || (B c (a1 + q) || B c arg)))).
  apply binv_w; auto. intros H.
  rewrite (I arg), (I (a1 + q)), (I (a2 + q)); auto;
    intros c Hc; apply H; rewrite Hc; now rewrite ?orb_true_r.
Qed.
Lemma binv_stock k : forall res d B T T', binv B T T' ->
  binv (fun c => pzero false k res (B c)) (stock k res d T) (stock k res d T').
Proof.
  induction k; intros res d B T T' I; cbn [pzero stock]; auto.
  apply (IHk (S res) (tl d) (fun c => pset (B c) res false)). apply binv_w; auto.
Qed.

Ltac one I :=
  let H := fresh "H" in intros H;
  repeat match type of I with binv _ ?T ?T' =>
    match goal with |- context [T ?l] =>
      rewrite (I l) by (intros ? ?Hc; apply H; cbv beta; rewrite ?Hc; now rewrite ?orb_true_r) end end;
  auto.

Lemma bsafe_step b i B T T' : binv B T T' -> (is_ind b = true -> i < n) ->
  bvchoices false b T = bvchoices false b T' ->
  binv (fun c => bsafe (sbit c i) b (B c)) (zval ps x i b T) (zval ps x' i b T').
Proof.
  intros I Hi C.
  destruct b; cbn [fsafe zval bvchoices bchoices is_ind bmin] in *; auto;
    try (apply binv_keep; [exact I|one I]; fail);
    try (match goal with |- binv (fun c => pset (B c) ?res (@?r c)) _ _ =>
           apply (binv_w (B := B) res r); [exact I|one I] end; fail).
  - apply (binv_w (B := B) res (fun c => sbit c i)); [exact I|]. intros H. apply H.
    unfold sbit. rewrite Nat.eqb_refl. apply Nat.ltb_lt. auto.
  - apply (binv_w (B := fun c => pset (B c) a2 (B c a1)) res (fun c => pset (B c) a2 (B c a1) a1)).
    + apply (binv_w (B := B) a2 (fun c => B c a1)); [exact I|one I].
    + intros H. unfold pset in H. unfold upd.
      destruct (Nat.eqb a1 a2); rewrite (I a1); auto.
  - apply (binv_w (B := fun c => pset (B c) a2 (B c a1)) res (fun c => pset (B c) a2 (B c a1) a1)).
    + apply (binv_w (B := B) a2 (fun c => B c a1)); [exact I|one I].
    + intros H. unfold pset in H. unfold upd.
      destruct (Nat.eqb a1 a2); rewrite (I a1); auto.
  - apply (binv_w (B := B) res (fun c => false)); [exact I|]. injection C as ->. auto.
  - apply (binv_w (B := B) res (fun c => false)); [exact I|]. injection C as ->. auto.
  - injection C as C. rewrite C.
    apply (binv_w (B := B) res (fun c => B c a1 || B c a2)); [exact I|]. one I.
  - injection C as C. rewrite C.
    apply (binv_w (B := B) res (fun c => B c a1 || B c a2)); [exact I|]. one I.
  - injection C as C. rewrite C. intros l H.
    destruct (ltb K (zero K) (T' arg)).
    + unfold upd, pset in *. destruct (Nat.eqb l res); auto.
      apply I. intros c0 Hc. apply H. rewrite Hc. apply orb_true_r.
    + apply I. unfold pset in *. intros c0 Hc. apply H.
      destruct (Nat.eqb_spec l res); subst; rewrite ?Hc; auto.
  - injection C as C. rewrite C. intros l H.
    destruct (leb K (zero K) (T' arg)).
    + unfold upd, pset in *. destruct (Nat.eqb l res); auto.
      apply I. intros c0 Hc. apply H. rewrite Hc. apply orb_true_r.
    + apply I. unfold pset in *. intros c0 Hc. apply H.
      destruct (Nat.eqb_spec l res); subst; rewrite ?Hc; auto.
  - now apply binv_copy.
  - apply (binv_dot size a1 a2 res 0 (B := fun c => pset (B c) res false)).
    apply (binv_w (B := B) res (fun _ => false)); auto.
  - now apply binv_axpy.
  - now apply binv_stock.
Qed.
Lemma btight_step b i B T T' : binv B T T' -> (is_ind b = true -> i < n) ->
  bvchoices true b T = bvchoices true b T' ->
  binv (fun c => btight (sbit c i) b T (B c)) (zval ps x i b T) (zval ps x' i b T').
Proof.
  intros I Hi C.
  destruct b; try (apply bsafe_step; auto; fail);
    cbn [ftight zval bvchoices bchoices] in *; injection C as C.
  - unfold vmin. rewrite <- C.
    match goal with |- binv (fun c => pset (B c) ?res (@?r c)) _ _ =>
           apply (binv_w (B := B) res r); [exact I|] end.
    destruct (ltb K (T a2) (T a1)); [one I|]. destruct (ltb K (T a1) (T a2)); one I.
  - rewrite <- C.
    match goal with |- binv (fun c => pset (B c) ?res (@?r c)) _ _ =>
           apply (binv_w (B := B) res r); [exact I|] end.
    destruct (ltb K (zero K) (T arg)); one I.
  - rewrite <- C.
    match goal with |- binv (fun c => pset (B c) ?res (@?r c)) _ _ =>
           apply (binv_w (B := B) res r); [exact I|] end.
    destruct (leb K (zero K) (T arg)); one I.
  - rewrite <- C. destruct (ltb K (zero K) (T arg)); auto.
    apply (binv_w (B := B) res (fun c => B c a1)); [exact I|one I].
  - rewrite <- C. destruct (leb K (zero K) (T arg)); auto.
    apply (binv_w (B := B) res (fun c => B c a1)); [exact I|one I].
Qed.

Definition bagree (rows : nat -> list bool) (y y' : list val) : Prop :=
  exists m, (forall c, length (rows c) = m) /\ length y = m /\ length y' = m /\
  forall k, k < m -> (forall c, nth k (rows c) false = true -> x c = x' c) ->
    nth_error y k = nth_error y' k.

Lemma bagree_step b B T T' rows y y' : binv B T T' -> bagree rows y y' ->
  bagree (fun c => rows c ++ prow (K:=K) b (B c)) (y ++ out_of b T) (y' ++ out_of b T').
Proof.
  intros I (m & L & L1 & L2 & A).
  destruct b; cbn [prow out_of];
    try (exists m; repeat split; rewrite ?app_nil_r; auto; [intros; rewrite app_nil_r; auto|];
         intros k Hk H; apply A; auto; intros ? Hc; apply H; rewrite app_nil_r; auto; fail).
  exists (m + 1). repeat split.
  - intros c. rewrite app_length, L. reflexivity.
  - rewrite app_length, L1. reflexivity.
  - rewrite app_length, L2. reflexivity.
  - intros k Hk H. destruct (Nat.lt_ge_cases k m) as [Q|Q].
    + rewrite !nth_error_app1 by lia. apply A; auto. intros c Hc. apply H.
      rewrite app_nth1 by (rewrite L; auto). exact Hc.
    + assert (k = m) by lia. subst k.
      rewrite !nth_error_app2, L1, L2, Nat.sub_diag by lia. cbn. f_equal.
      apply I. intros c Hc. apply H. rewrite app_nth2, L, Nat.sub_diag by (rewrite L; auto). exact Hc.
Qed.

Lemma inds_resolve (o : op) t (T : mem) :
  inds (o :: t) = (if is_ind (resolve T o) then 1 else 0) + inds t.
Proof.
  unfold inds. cbn [filter]. destruct o; cbn [resolve is_ind]; try reflexivity.
  destruct (is_ind b); reflexivity.
Qed.

Lemma bchoices_len tight b (T T' : mem) :
  length (bvchoices tight b T) = length (bvchoices tight b T').
Proof. destruct b, tight; reflexivity. Qed.
Lemma ochoices_split tight (o : op) (T T' : mem) r r' :
  ovchoices tight o T ++ r = ovchoices tight o T' ++ r' ->
  resolve T o = resolve T' o /\
  bvchoices tight (resolve T o) T = bvchoices tight (resolve T o) T' /\ r = r'.
Proof.
  intros H. unfold ovchoices in H. rewrite <- !app_assoc in H.
  apply app_inv_len in H; [|now rewrite !map_length]. destruct H as [H1 H2].
  assert (R : resolve T o = resolve T' o).
  { destruct o; cbn [resolve pointer map] in *; auto; injection H1 as ->; reflexivity. }
  rewrite <- R in H2. apply app_inv_len in H2; [|apply bchoices_len].
  tauto.
Qed.

Lemma cover_safe t : forall s s' e e' B rows rows',
  (forall c, fsrun false orb bmin orb (sbit c) t (fi s) (B c) (rows c) = SwRows (rows' c)) ->
  fi s = fi s' -> fi s + inds t = n ->
  binv B (fT s) (fT s') -> bagree rows (fy s) (fy s') ->
  vchoices false ps x t s = vchoices false ps x' t s' ->
  zrun ps x t s = Done e -> zrun ps x' t s' = Done e' -> (0 <= frc e)%Z -> (0 <= frc e')%Z ->
  bagree rows' (fy e) (fy e').
Proof.
  induction t as [|o t IH]; intros s s' e e' B rows rows' SR FI N I A CH Z Z' F F'.
  - cbn in Z, Z'. injection Z as <-. injection Z' as <-.
    destruct A as (m & L & L1 & L2 & A). exists m. repeat split; auto.
    + intros c. specialize (SR c). cbn in SR. injection SR as <-. auto.
    + intros k Hk H. apply A; auto. intros c Hc. apply H.
      specialize (SR c). cbn in SR. injection SR as <-. auto.
  - destruct (@zrun_step K ps o x t s e Z F) as (s1 & E1 & Z1).
    destruct (@zrun_step K ps o x' t s' e' Z' F') as (s2 & E2 & Z2).
    cbn [vchoices] in CH. rewrite E1, E2 in CH.
    destruct (ochoices_split _ _ _ _ _ _ CH) as (RS & CB & CT).
    destruct (zstep_inl _ _ _ _ E1) as (_ & _ & T1 & I1 & Y1).
    destruct (zstep_inl _ _ _ _ E2) as (_ & _ & T2 & I2 & Y2).
    rewrite <- RS in *. rewrite (inds_resolve o t (fT s)) in N.
    destruct o as [b| | | | | | | | | | | | | | | | | | | |]; try discriminate (SR 0).
    cbn [resolve fsrun] in *.
    eapply (IH s1 s2 e e' (fun c => bsafe (sbit c (fi s)) b (B c))
               (fun c => rows c ++ prow b (B c))); eauto.
    + intros c. rewrite I1. apply SR.
    + rewrite I1, I2, FI. reflexivity.
    + rewrite I1. destruct (is_ind b); lia.
    + rewrite T1, T2, <- FI. apply bsafe_step; auto. intros Q. rewrite Q in N. lia.
    + rewrite Y1, Y2. apply bagree_step; auto.
Qed.

(* tight; the sweep without the restriction on conditional assignments *)
Fixpoint btrun (sb : nat -> bool) (t : list op) (s : fstate K) (B : pats bool)
  : list bool :=
  match t with
  | [] => []
  | o :: t' =>
      let b := resolve (fT s) o in
      prow b B ++
      match zstep ps x o s with
      | inl s' => btrun sb t' s' (btight (sb (fi s)) b (fT s) B)
      | inr _ => []
      end
  end.
Lemma cover_tight t : forall s s' e e' B rows,
  fi s = fi s' -> fi s + inds t = n ->
  binv B (fT s) (fT s') -> bagree rows (fy s) (fy s') ->
  vchoices true ps x t s = vchoices true ps x' t s' ->
  zrun ps x t s = Done e -> zrun ps x' t s' = Done e' -> (0 <= frc e)%Z -> (0 <= frc e')%Z ->
  bagree (fun c => rows c ++ btrun (sbit c) t s (B c)) (fy e) (fy e').
Proof.
  induction t as [|o t IH]; intros s s' e e' B rows FI N I A CH Z Z' F F'.
  - cbn in Z, Z'. injection Z as <-. injection Z' as <-.
    destruct A as (m & L & L1 & L2 & A). exists m. repeat split; auto.
    + intros c. cbn. rewrite app_nil_r. auto.
    + intros k Hk H. apply A; auto. intros c Hc. apply H.
      cbn. rewrite app_nil_r. auto.
  - destruct (@zrun_step K ps o x t s e Z F) as (s1 & E1 & Z1).
    destruct (@zrun_step K ps o x' t s' e' Z' F') as (s2 & E2 & Z2).
    cbn [vchoices] in CH. rewrite E1, E2 in CH.
    destruct (ochoices_split _ _ _ _ _ _ CH) as (RS & CB & CT).
    destruct (zstep_inl _ _ _ _ E1) as (_ & _ & T1 & I1 & Y1).
    destruct (zstep_inl _ _ _ _ E2) as (_ & _ & T2 & I2 & Y2).
    rewrite <- RS in *. rewrite (inds_resolve o t (fT s)) in N.
    set (b := resolve (fT s) o) in *.
    assert (G : bagree (fun c => (rows c ++ prow b (B c)) ++
        btrun (sbit c) t s1 (btight (sbit c (fi s)) b (fT s) (B c))) (fy e) (fy e')).
    { eapply (IH s1 s2 e e' (fun c => btight (sbit c (fi s)) b (fT s) (B c))
               (fun c => rows c ++ prow b (B c))); eauto.
      - rewrite I1, I2, FI. reflexivity.
      - rewrite I1. destruct (is_ind b); lia.
      - rewrite T1, T2, <- FI. apply btight_step; auto. intros Q. rewrite Q in N. lia.
      - rewrite Y1, Y2. apply bagree_step; auto. }
    destruct G as (m & L & L1 & L2 & G). exists m. repeat split; auto.
    + intros c. rewrite <- (L c), <- app_assoc. cbn [btrun]. fold b. rewrite E1. reflexivity.
    + intros k Hk H. apply G; auto. intros c Hc. apply H. rewrite <- app_assoc in Hc.
      cbn [btrun]. fold b. rewrite E1. exact Hc.
Qed.

Lemma ftrun_btrun sb t : forall s B rows rows',
  ftrun false orb bmin orb orb ps x sb t (fi s) (fT s) B rows = SwRows rows' ->
  rows' = rows ++ btrun sb t s B.
Proof.
  induction t as [|o t IH]; intros s B rows rows' E.
  - cbn in *. injection E as <-. now rewrite app_nil_r.
  - cbn [ftrun btrun] in *. unfold zstep.
    destruct (oob (fT s) o); [discriminate E|].
    destruct (is_cond (resolve (fT s) o)); [discriminate E|].
    destruct (zabort (resolve (fT s) o) (fT s)); [discriminate E|].
    match goal with |- context [btrun sb t ?s1 _] => specialize (IH s1) end.
    cbn [fi fT] in IH. apply IH in E. rewrite E, app_assoc. reflexivity.
Qed.
End Cover.
