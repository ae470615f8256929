(* C47, C48: jac_pat by bit pattern propagation. *)
Require Import List ZArith NArith Bool Arith Lia.
Require Import Verif.AdModel Verif.AdSpec Verif.SpSpec Verif.SpProofs Verif.AdRestore Verif.AdReplay
  Verif.AdKeep Verif.BvModel Verif.BvSpec Verif.BvBits Verif.BvFwd Verif.BvRev Verif.BvFlow Verif.BvCols.
Import ListNotations.
Set Implicit Arguments.

(* ------------------------------------------------------------------ *)
(* Small facts.                                                         *)
Lemma batches_pos wb n : 1 <= batches wb n.
Proof.
  unfold batches, stripmine_max. destruct (Nat.leb_spec (words wb n) 30); auto.
  pose proof (Nat.div_le_lower_bound (words wb n) 30 1 ltac:(lia) ltac:(lia)). lia.
Qed.
Lemma words_small wb n : 1 <= wb -> n <= 30 * wb -> batches wb n = 1.
Proof.
  intros W H. unfold batches, stripmine_max.
  assert (words wb n <= 30).
  { unfold words. pose proof (Nat.div_mod n wb ltac:(lia)) as D.
    destruct (Nat.eqb_spec (n mod wb) 0); nia. }
  destruct (Nat.leb_spec (words wb n) 30); auto; lia.
Qed.

Section Facts.
Variable K : Arith.
Notation op := (op K).
Variables (ps x : nat -> V K).

Lemma fsrun_plain W (wz : W) wor wmin wcs sd (t : list op) : forall i P rows,
  (exists r, fsrun wz wor wmin wcs sd t i P rows = SwRows r /\ forallb is_plain t = true /\
     length r = length rows + deps t) \/
  (fsrun wz wor wmin wcs sd t i P rows = SwFail /\ forallb is_plain t = false).
Proof.
  induction t as [|o t IH]; intros i P rows; cbn [fsrun forallb].
  - left. exists rows. unfold deps. cbn. auto.
  - destruct o as [b| | | | | | | | | | | | | | | | | | | |]; cbn [is_plain andb]; auto.
    rewrite (@deps_cons K (Plain b) t (fun _ => zero K)). cbn [resolve].
    destruct (IH (if is_ind b then S i else i) (fsafe wz wor wmin wcs (sd i) b P) (rows ++ prow b P))
      as [(r & E & Pl & L)|[E Pl]]; auto.
    left. exists r. repeat split; auto. rewrite L, app_length. destruct b; cbn; lia.
Qed.
Lemma ftrun_len W (wz : W) wor wmin wcs wtie sd (t : list op) : forall i T P rows r,
  ftrun wz wor wmin wcs wtie ps x sd t i T P rows = SwRows r -> length r = length rows + deps t.
Proof.
  induction t as [|o t IH]; intros i T P rows r E; cbn [ftrun] in E.
  - injection E as <-. unfold deps. cbn. auto.
  - destruct (oob T o); [discriminate E|]. destruct (is_cond (resolve T o)); [discriminate E|].
    destruct (zabort (resolve T o) T); [discriminate E|].
    apply IH in E. rewrite E, app_length, (@deps_cons K o t T).
    destruct (resolve T o); cbn; lia.
Qed.
Lemma zrun_zexec t (s e : fstate K) : zrun ps x t s = Done e -> (0 <= frc e)%Z ->
  zexec ps x t s = inl e.
Proof.
  revert s. induction t as [|o t IH]; intros s E F.
  - cbn in *. now injection E as ->.
  - destruct (@zrun_step K ps o x t s e E F) as (s1 & E1 & E2). cbn [zexec]. rewrite E1. auto.
Qed.
Lemma bsrun_len sb (t : list op) : forallb is_plain t = true -> forall i B, length (bsrun sb t i B) = deps t.
Proof.
  induction t as [|o t IH]; intros Pl i B; [reflexivity|]. cbn [forallb] in Pl.
  apply andb_true_iff in Pl. destruct Pl as [P1 P2]. destruct o; try discriminate P1.
  cbn [bsrun]. rewrite app_length, (IH P2), (@deps_cons K (Plain b) t (fun _ => zero K)).
  cbn [resolve]. destruct b; reflexivity.
Qed.
Lemma btrun_len sb (t : list op) : forall s e B, zexec ps x t s = inl e ->
  length (btrun ps x sb t s B) = deps t.
Proof.
  induction t as [|o t IH]; intros s e B E; [reflexivity|]. cbn [zexec btrun] in *.
  destruct (zstep ps x o s) as [s1|]; [|discriminate E].
  rewrite app_length, (IH _ _ _ E), (@deps_cons K o t (fT s)).
  destruct (resolve (fT s) o); reflexivity.
Qed.
(* columns that are no independents *)
Lemma sbit_high n c i : n <= c -> sbit n c i = false.
Proof.
  intros H. unfold sbit. destruct (Nat.eqb_spec c i), (Nat.ltb_spec i n); cbn; auto; lia.
Qed.
Lemma bsrun_high n c (t : list op) : n <= c -> forall i B k, (forall l, B l = false) ->
  nth k (bsrun (sbit n c) t i B) false = false.
Proof.
  intros H. induction t as [|o t IH]; intros i B k HB; cbn [bsrun]; [destruct k; reflexivity|].
  destruct o; try (destruct k; reflexivity).
  assert (IH' := fun k => IH (if is_ind b then S i else i) (fsafe false orb bmin orb (sbit n c i) b B) k).
  assert (HB' : forall l, fsafe false orb bmin orb (sbit n c i) b B l = false).
  { intros l. symmetry.
    refine (@hp_fsafe bool false orb (fun _ => false) bmin orb eq_refl (fun _ _ => eq_refl) K
      (sbit n c i) (sbit n c i) b B B _ _ _ l).
    - intros j. symmetry. apply HB.
    - symmetry. now apply sbit_high.
    - destruct b; cbn; auto. }
  destruct b; cbn [prow app]; auto. destruct k; cbn [nth]; auto.
Qed.
Lemma btrun_high n c (t : list op) : n <= c -> forall s B k, (forall l, B l = false) ->
  nth k (btrun ps x (sbit n c) t s B) false = false.
Proof.
  intros H. induction t as [|o t IH]; intros s B k HB; cbn [btrun]; [destruct k; reflexivity|].
  set (b := resolve (fT s) o).
  assert (HB' : forall l, ftight false orb bmin orb orb (sbit n c (fi s)) b (fT s) B l = false).
  { intros l. symmetry.
    refine (@hp_ftight bool false orb (fun _ => false) bmin orb orb eq_refl (fun _ _ => eq_refl) K
      (sbit n c (fi s)) (sbit n c (fi s)) b (fT s) B B _ _ _ l).
    - intros j. symmetry. apply HB.
    - symmetry. now apply sbit_high.
    - destruct b; cbn; auto. }
  assert (R : forall k, nth k (match zstep ps x o s with
      | inl s' => btrun ps x (sbit n c) t s' (ftight false orb bmin orb orb (sbit n c (fi s)) b (fT s) B)
      | inr _ => [] end) false = false).
  { intros k'. destruct (zstep ps x o s); [|destruct k'; reflexivity]. now apply IH. }
  destruct b; cbn [prow app]; auto. destruct k; cbn [nth]; auto.
Qed.
End Facts.

Lemma rcs_word wb K n (t : list (op K)) j : 1 <= wb -> j < bits_per_strip wb n ->
  fwd_keeps (Nat.ltb 1 (words wb n)) t = true ->
  Forall (good_op (colbit wb j) rmin rcs (K := K)) t.
Proof.
  intros W J G. apply Forall_forall. intros o Ho. unfold fwd_keeps in G. rewrite forallb_forall in G.
  apply G in Ho. destruct o; cbn [good_op]; auto. apply negb_true_iff in Ho.
  destruct b; cbn [good_safe fwd_loses] in *; auto; try discriminate Ho.
  apply Nat.ltb_ge in Ho. intros r a c0. unfold colbit, rmin.
  assert (j / wb = 0) as ->.
  { apply Nat.div_small. unfold bits_per_strip, words_per_batch, stripmine_max in J.
    destruct (Nat.leb_spec (words wb n) 30); nia. }
  cbn [Nat.eqb]. apply N.lor_spec.
Qed.
Lemma seed_hom wb n s j i : 1 <= wb -> j < bits_per_strip wb n ->
  colbit wb j (seed wb n s i) = sbit n (s * bits_per_strip wb n + j) i.
Proof. intros W J. now apply seed_bit. Qed.

(* ------------------------------------------------------------------ *)
(* Forward.                                                             *)
Section Forward.
Variables (wb : nat) (K : Arith).
Hypothesis W : 1 <= wb.
Notation f0 := (fun _ : nat => false).

Lemma fwd_safe_rows n m (t : list (op K)) c :
  fwd_safe wb n m t = BvRows c -> fwd_keeps (Nat.ltb 1 (words wb n)) t = true ->
  inds t = n /\ deps t = m /\ forallb is_plain t = true /\
  forall k, k < m -> done (fun c0 => bsrun (sbit n c0) t 0 f0) n c k.
Proof.
  unfold fwd_safe, counts_ok. intros E G.
  destruct (Nat.eqb_spec (inds t) n) as [Hi|]; [|discriminate E].
  destruct (Nat.eqb_spec (deps t) m) as [Hd|]; [|discriminate E]. cbn [andb] in E.
  assert (Pl : forallb is_plain t = true).
  { pose proof (batches_pos wb n) as B. destruct (batches wb n); [lia|]. cbn [strips_fwd] in E.
    destruct (@fsrun_plain K row rzero ror rmin rcs (seed wb n 0) t 0 (fun _ => rzero) [])
      as [(r & _ & Q & _)|[Q _]]; auto. rewrite Q in E. discriminate E. }
  split; [exact Hi|]. split; [exact Hd|]. split; [exact Pl|].
  apply strips_pattern with (sweep := fun sd => fsrun rzero ror rmin rcs sd t 0 (fun _ => rzero) [])
    (wb := wb) (m := m) (ideal := fun c0 => bsrun (sbit n c0) t 0 f0); auto.
  all: try (intros; apply bsrun_high; auto; fail).
  all: intros s rows Es; split;
    [destruct (@fsrun_plain K row rzero ror rmin rcs (seed wb n s) t 0 (fun _ => rzero) [])
      as [(r & Q & _ & L)|[Q _]]; rewrite Q in Es; [injection Es as <-; cbn in L; lia|discriminate Es]|].
  all: intros j Hj;
    pose proof (@fsrun_hom row rzero ror (colbit wb j) rmin rcs (colbit_zero wb j) (colbit_or wb j) K
      (seed wb n s) (sbit n (s * bits_per_strip wb n + j)) t
      (fun i => @seed_hom wb n s j i W Hj) (@rcs_word wb K n t j W Hj G) 0 (fun _ => rzero) f0 [] rows
      (fun l => colbit_zero wb j) Es) as Q;
    apply fsrun_bsrun in Q; exact Q.
Qed.

Lemma agree_covers (n m : nat) (c : crstore) (x x' : nat -> V K) (y y' : list (V K)) (ideal : nat -> list bool) :
  (forall k, k < m -> forall j, nth k (ideal j) false = true -> In j (columns (c k))) ->
  (forall c0, length (ideal c0) = m) ->
  @bagree K x x' ideal y y' -> @covers K m c x x' y y'.
Proof.
  intros H L (m' & L' & L1 & L2 & A). assert (m' = m) as -> by (rewrite <- (L' n); apply L).
  split; [auto|]. split; [auto|]. intros k Hk Hx. apply A; auto.
Qed.
Lemma done_in (n m : nat) (c : crstore) ideal k : (forall c0, n <= c0 -> nth k (ideal c0) false = false) ->
  k < m -> done ideal n c k -> forall j, nth k (ideal j) false = true <-> In j (columns (c k)).
Proof.
  intros H Hk [D _] j. rewrite D, filter_In, in_seq. split; [|tauto].
  intros Q. split; auto. destruct (Nat.lt_ge_cases j n) as [|N]; [lia|].
  rewrite (H j N) in Q. discriminate Q.
Qed.
Lemma done_wf (n m : nat) (c : crstore) ideal : (forall k, k < m -> done ideal n c k) ->
  well_formed n m c /\ forall k, k < m -> c k <> Some [].
Proof.
  intros H. split; [|intros k Hk; now apply (H k)].
  intros k Hk. destruct (H k Hk) as [-> _].
  destruct (@filter_seq_increasing (fun c => nth k (ideal c) false) n 0) as [A B].
  split; auto. intros j Hj. apply B in Hj. lia.
Qed.

(* C47, safe: if x and x' agree on the columns of row k, result k is the same. *)
Theorem C47_safe_forward_covers n m (t : list (op K)) c ps x x' g e e' :
  fwd_safe wb n m t = BvRows c -> fwd_keeps (Nat.ltb 1 (words wb n)) t = true ->
  zos_forward ps x g t = Done e -> zos_forward ps x' g t = Done e' ->
  (0 <= frc e)%Z -> (0 <= frc e')%Z ->
  bvdecisions false ps x g t = bvdecisions false ps x' g t ->
  @covers K m c x x' (fy e) (fy e').
Proof.
  intros E G Z Z' F F' D. destruct (fwd_safe_rows _ _ _ E G) as (Hi & Hd & Pl & Dn).
  apply (@agree_covers n) with (ideal := fun c0 => bsrun (sbit n c0) t 0 f0).
  - intros k Hk j Hj. apply (@done_in n m c (fun c0 => bsrun (sbit n c0) t 0 f0)); auto.
    intros; now apply bsrun_high.
  - intros c0. rewrite bsrun_len; auto.
  - apply (@cover_safe K ps x x' n t (mkF g 0 [] 3%Z []) (mkF g 0 [] 3%Z []) e e' (fun _ => f0) (fun _ => [])); auto.
    + intros c0. cbn [fi].
      destruct (@fsrun_plain K bool false orb bmin orb (sbit n c0) t 0 f0 []) as [(r & Q & _ & L)|[_ Q]];
        [|congruence]. rewrite Q. apply fsrun_bsrun in Q. now rewrite Q.
    + intros l _. reflexivity.
    + exists 0. repeat split; auto; intros; lia.
Qed.

(* C47, safe: nothing but chains of operations. *)
Theorem C47_safe_forward_only_chains n m (t : list (op K)) c k j :
  fwd_safe wb n m t = BvRows c -> fwd_keeps (Nat.ltb 1 (words wb n)) t = true ->
  k < m -> In j (columns (c k)) -> feeds true (plains t) j k.
Proof.
  intros E G Hk Hj. destruct (fwd_safe_rows _ _ _ E G) as (Hi & Hd & Pl & Dn).
  apply (@done_in n m c (fun c0 => bsrun (sbit n c0) t 0 f0)) in Hj; auto; [|intros; now apply bsrun_high].
  apply bsrun_flow in Hj. destruct Hj as [(l & Q & _)|[_ Q]]; [discriminate Q|].
  now rewrite Nat.sub_0_r in Q.
Qed.

(* C47: rows are increasing and below n; a row that is there is not empty. *)
Theorem C47_safe_forward_rows n m (t : list (op K)) c :
  fwd_safe wb n m t = BvRows c -> fwd_keeps (Nat.ltb 1 (words wb n)) t = true ->
  well_formed n m c /\ forall k, k < m -> c k <> Some [].
Proof.
  intros E G. destruct (fwd_safe_rows _ _ _ E G) as (Hi & Hd & Pl & Dn). eapply done_wf; eauto.
Qed.

(* C47: up to 30 words of independents the driver does not stop. *)
Theorem C47_safe_forward_returns n m (t : list (op K)) :
  n <= 30 * wb -> inds t = n -> deps t = m -> forallb is_plain t = true ->
  exists c, fwd_safe wb n m t = BvRows c.
Proof.
  intros Hn Hi Hd Pl. unfold fwd_safe, counts_ok. rewrite Hi, Hd, !Nat.eqb_refl. cbn [andb].
  rewrite words_small by auto. cbn [strips_fwd].
  destruct (@fsrun_plain K row rzero ror rmin rcs (seed wb n 0) t 0 (fun _ => rzero) [])
    as [(r & -> & _)|[_ Q]]; [|congruence].
  destruct (@extract_rows_first wb n r 0 cnull) as [c ->]. eauto.
Qed.

(* tight *)
Lemma tie_self j a : colbit wb j (rtie a a) = colbit wb j a.
Proof. unfold colbit, rtie. now rewrite N.ltb_irrefl. Qed.
Lemma fwd_tight_rows n m (t : list (op K)) c ps x g :
  fwd_tight wb ps x g n m t = BvRows c -> no_tie ps x t (mkF g 0 [] 3%Z []) = true ->
  inds t = n /\ deps t = m /\
  forall k, k < m -> done (fun c0 => btrun ps x (sbit n c0) t (mkF g 0 [] 3%Z []) f0) n c k.
Proof.
  unfold fwd_tight, counts_ok. intros E G.
  destruct (Nat.eqb_spec (inds t) n) as [Hi|]; [|discriminate E].
  destruct (Nat.eqb_spec (deps t) m) as [Hd|]; [|discriminate E]. cbn [andb] in E.
  split; [exact Hi|]. split; [exact Hd|]. apply strips_pattern with
    (sweep := fun sd => ftrun rzero ror rmin rcs rtie ps x sd t 0 g (fun _ => rzero) [])
    (wb := wb) (m := m) (ideal := fun c0 => btrun ps x (sbit n c0) t (mkF g 0 [] 3%Z []) f0); auto.
  all: try (intros; apply btrun_high; auto; fail).
  all: intros s rows Es; split;
    [apply ftrun_len in Es; cbn in Es; lia|].
  all: intros j Hj;
    pose proof (@ftrun_hom row rzero ror (colbit wb j) rmin rcs rtie (colbit_zero wb j) (colbit_or wb j) K
      ps x (seed wb n s) (sbit n (s * bits_per_strip wb n + j)) t
      (fun i => @seed_hom wb n s j i W Hj) (mkF g 0 [] 3%Z []) (fun _ => rzero) f0 [] rows
      (fun l => colbit_zero wb j) (tie_self j) G Es) as Q;
    apply (@ftrun_btrun K ps x _ t (mkF g 0 [] 3%Z [])) in Q; exact Q.
Qed.

Theorem C47_tight_forward_covers n m (t : list (op K)) c ps x x' g e e' :
  fwd_tight wb ps x g n m t = BvRows c -> no_tie ps x t (mkF g 0 [] 3%Z []) = true ->
  zos_forward ps x g t = Done e -> zos_forward ps x' g t = Done e' ->
  (0 <= frc e)%Z -> (0 <= frc e')%Z ->
  bvdecisions true ps x g t = bvdecisions true ps x' g t ->
  @covers K m c x x' (fy e) (fy e').
Proof.
  intros E G Z Z' F F' D. destruct (@fwd_tight_rows n m t c ps x g E G) as (Hi & Hd & Dn).
  apply (@agree_covers n) with (ideal := fun c0 => btrun ps x (sbit n c0) t (mkF g 0 [] 3%Z []) f0).
  - intros k Hk j Hj.
    apply (@done_in n m c (fun c0 => btrun ps x (sbit n c0) t (mkF g 0 [] 3%Z []) f0)); auto.
    intros; now apply btrun_high.
  - intros c0. rewrite (@btrun_len K ps x _ t _ e); auto. now apply zrun_zexec.
  - apply (@cover_tight K ps x x' n t (mkF g 0 [] 3%Z []) (mkF g 0 [] 3%Z []) e e' (fun _ => f0) (fun _ => [])); auto.
    + intros l _. reflexivity.
    + exists 0. repeat split; auto; intros; lia.
Qed.
Theorem C47_tight_forward_only_chains n m (t : list (op K)) c ps x g k j :
  fwd_tight wb ps x g n m t = BvRows c -> no_tie ps x t (mkF g 0 [] 3%Z []) = true ->
  k < m -> In j (columns (c k)) -> feeds true (operations ps x g t) j k.
Proof.
  intros E G Hk Hj. destruct (@fwd_tight_rows n m t c ps x g E G) as (Hi & Hd & Dn).
  apply (@done_in n m c (fun c0 => btrun ps x (sbit n c0) t (mkF g 0 [] 3%Z []) f0)) in Hj; auto;
    [|intros; now apply btrun_high].
  apply btrun_flow in Hj. destruct Hj as [(l & Q & _)|[_ Q]]; [discriminate Q|].
  cbn [fi] in Q. now rewrite Nat.sub_0_r in Q.
Qed.
Theorem C47_tight_forward_rows n m (t : list (op K)) c ps x g :
  fwd_tight wb ps x g n m t = BvRows c -> no_tie ps x t (mkF g 0 [] 3%Z []) = true ->
  well_formed n m c /\ forall k, k < m -> c k <> Some [].
Proof.
  intros E G. destruct (@fwd_tight_rows n m t c ps x g E G) as (Hi & Hd & Dn). eapply done_wf; eauto.
Qed.
Theorem C47_tight_forward_returns n m (t : list (op K)) ps x g e :
  n <= 30 * wb -> inds t = n -> deps t = m ->
  zos_forward ps x g t = Done e -> (0 <= frc e)%Z ->
  forallb (fun b => negb (is_cond b)) (operations ps x g t) = true ->
  exists c, fwd_tight wb ps x g n m t = BvRows c.
Proof.
  intros Hn Hi Hd Z F C. unfold fwd_tight, counts_ok. rewrite Hi, Hd, !Nat.eqb_refl. cbn [andb].
  rewrite words_small by auto. cbn [strips_fwd].
  assert (Q : forall t (s : fstate K) P rows, zrun ps x t s = Done e ->
     forallb (fun b => negb (is_cond b)) (resolved ps x t s) = true ->
     exists r, ftrun rzero ror rmin rcs rtie ps x (seed wb n 0) t (fi s) (fT s) P rows = SwRows r).
  { clear - F. induction t as [|o t IH]; intros s P rows Z C; cbn [ftrun]; eauto.
    destruct (@zrun_step K ps o x t s e Z F) as (s1 & E1 & E2).
    destruct (zstep_inl _ _ _ _ E1) as (O1 & A1 & T1 & I1 & _).
    rewrite O1, A1. cbn [resolved forallb] in C. rewrite E1 in C. apply andb_true_iff in C.
    destruct C as [C1 C2]. apply negb_true_iff in C1. rewrite C1, <- T1, <- I1. now apply IH. }
  destruct (Q t (mkF g 0 [] 3%Z []) (fun _ => rzero) [] Z C) as [r Er]. cbn [fi fT] in Er. rewrite Er.
  destruct (@extract_rows_first wb n r 0 cnull) as [c ->]. eauto.
Qed.
End Forward.

(* ------------------------------------------------------------------ *)
(* Reverse.                                                             *)
Section Reverse.
Variables (wb : nat) (K : Arith).
Hypothesis W : 1 <= wb.
Notation f0 := (fun _ : nat => false).

Lemma rev_good j p (t : list (op K)) h : rev_keeps false (plains t) h = true ->
  Forall (good_rop (colbit wb j) (rshort p) (K := K)) t.
Proof.
  revert h. induction t as [|o t IH]; intros h G; constructor.
  - destruct o; cbn [good_rop]; auto. cbn [plains flat_map app rev_keeps] in G.
    rewrite !andb_true_iff in G. destruct G as [[G _] _].
    destruct b; cbn [good_rev]; auto; discriminate G.
  - destruct o; cbn [plains flat_map app rev_keeps] in G; eauto.
    rewrite !andb_true_iff in G. destruct G as [_ G]. eauto.
Qed.
Lemma qsrun_plain Wt (wz : Wt) wor ws sd (t : list (op K)) s :
  (exists e, qsrun wz wor ws sd t s = Some e) <-> forallb is_plain t = true.
Proof.
  induction t as [|o t IH]; cbn [qsrun forallb]; [split; eauto|].
  destruct (qsrun wz wor ws sd t s) as [s1|].
  - assert (forallb is_plain t = true) as -> by (apply IH; eauto).
    destruct o; cbn; split; eauto; intros Q; try discriminate Q; destruct Q as [s2 Q]; discriminate Q.
  - assert (forallb is_plain t = false) as ->.
    { destruct (forallb is_plain t); auto. destruct (proj2 IH eq_refl) as [s1 Q]. discriminate Q. }
    rewrite andb_false_r. split; [intros [s1 Q]|intros Q]; discriminate Q.
Qed.

Definition good_col (n : nat) (bs : list (bop K)) (ideal : nat -> list bool) (k : nat) (f : nat -> bool) : Prop :=
  (forall c0, nth k (ideal c0) false = true -> f c0 = true) /\
  (forall j, j < n -> f j = true -> feeds false bs j k).

Lemma hq_start j (gz : nat -> row) n m :
  hq (colbit wb j) (mkQ (fun _ => rzero) gz n m) (mkQ f0 (fun i => colbit wb j (gz i)) n m).
Proof. repeat split; cbn; auto using colbit_zero. Qed.
Lemma rev_safe_rows gz n m (t : list (op K)) c :
  rev_safe wb gz n m t = BvRows c -> rev_keeps false (plains t) [] = true ->
  inds t = n /\ deps t = m /\ forallb is_plain t = true /\
  forall k, k < m -> col n (good_col n (plains t) (fun c0 => bsrun (sbit n c0) t 0 f0)) c k.
Proof.
  unfold rev_safe, counts_ok. intros E G.
  destruct (Nat.eqb_spec (inds t) n) as [Hi|]; [|discriminate E].
  destruct (Nat.eqb_spec (deps t) m) as [Hd|]; [|discriminate E]. cbn [andb] in E.
  split; auto. split; auto. split.
  { pose proof (batches_pos wb m) as B. destruct (batches wb m); [lia|]. cbn [strips_rev] in E.
    destruct (qsrun rzero ror (rshort (words_per_batch wb m)) (seed wb m 0) t _) eqn:Q;
      [|discriminate E]. apply (@qsrun_plain row rzero ror (rshort (words_per_batch wb m)) (seed wb m 0) t
      (mkQ (fun _ => rzero) gz n m)). eauto. }
  eapply strips_rev_pattern; eauto.
  intros s z Es j Hj Hm. cbv beta in Es.
  destruct (qsrun rzero ror (rshort (words_per_batch wb m)) (seed wb m s) t _) as [q|] eqn:Q;
    [|discriminate Es]. cbn [option_map] in Es. injection Es as <-.
  set (k := s * bits_per_strip wb m + j) in *.
  destruct (@qsrun_hom row rzero ror (colbit wb j) (rshort (words_per_batch wb m))
    (colbit_zero wb j) (colbit_or wb j) K (seed wb m s) (sbit m k) t
    (fun i => @seed_hom wb m s j i W Hj) (rev_good _ _ _ _ G) _
    (mkQ f0 (fun i => colbit wb j (gz i)) n m) _
    (hq_start j gz n m) Q)
    as (e' & Q' & HA & HZ & _ & _).
  split.
  - intros c0 Hc.
    destruct (@rev_safe_dual K n m c0 k f0 (fun i => colbit wb j (gz i)) t 0 0 e' f0 []) as (_ & _ & R); auto.
    + cbn [Nat.add]. rewrite Hi, Hd. exact Q'.
    + cbn [Nat.add]. lia.
    + rewrite Nat.sub_0_r in R. destruct (R ltac:(lia) Hc) as [(l & _ & M & _)|[_ M]]; [discriminate M|].
      rewrite HZ. exact M.
  - intros v Hv Hz. rewrite HZ in Hz.
    destruct (@rev_safe_flow K n m k (fun i => colbit wb j (gz i)) t 0 0 e') as (_ & _ & _ & R); auto.
    + cbn [Nat.add]. rewrite Hi, Hd. exact Q'.
    + destruct (R v ltac:(lia) Hz) as [_ R']. now rewrite !Nat.sub_0_r in R'.
Qed.

Lemma col_in n bs ideal c k : (forall c0, n <= c0 -> nth k (ideal c0) false = false) ->
  col n (good_col n bs ideal) c k ->
  (forall j, nth k (ideal j) false = true -> In j (columns (c k))) /\
  (forall j, In j (columns (c k)) -> feeds false bs j k).
Proof.
  intros H (f & -> & F1 & F2). cbn [columns]. split.
  - intros j Hj. apply filter_In. split; auto. apply in_seq.
    destruct (Nat.lt_ge_cases j n) as [|N]; [lia|]. rewrite (H j N) in Hj. discriminate Hj.
  - intros j Hj. apply filter_In in Hj. destruct Hj as [Hj Hf]. apply in_seq in Hj. apply F2; auto; lia.
Qed.

Theorem C48_safe_reverse_covers gz n m (t : list (op K)) c ps x x' g e e' :
  rev_safe wb gz n m t = BvRows c -> rev_keeps false (plains t) [] = true ->
  zos_forward ps x g t = Done e -> zos_forward ps x' g t = Done e' ->
  (0 <= frc e)%Z -> (0 <= frc e')%Z ->
  bvdecisions false ps x g t = bvdecisions false ps x' g t ->
  @covers K m c x x' (fy e) (fy e').
Proof.
  intros E G Z Z' F F' D. destruct (@rev_safe_rows gz n m t c E G) as (Hi & Hd & Pl & Dn).
  apply (@agree_covers K n) with (ideal := fun c0 => bsrun (sbit n c0) t 0 f0).
  - intros k Hk j Hj. eapply (proj1 (@col_in _ _ _ _ _ _ (Dn k Hk))); eauto.
    Unshelve. intros; now apply bsrun_high.
  - intros c0. rewrite bsrun_len; auto.
  - apply (@cover_safe K ps x x' n t (mkF g 0 [] 3%Z []) (mkF g 0 [] 3%Z []) e e' (fun _ => f0) (fun _ => [])); auto.
    + intros c0. cbn [fi].
      destruct (@fsrun_plain K bool false orb bmin orb (sbit n c0) t 0 f0 []) as [(r & Q & _ & L)|[_ Q]];
        [|congruence]. rewrite Q. apply fsrun_bsrun in Q. now rewrite Q.
    + intros l _. reflexivity.
    + exists 0. repeat split; auto; intros; lia.
Qed.
Theorem C48_safe_reverse_only_chains gz n m (t : list (op K)) c k j :
  rev_safe wb gz n m t = BvRows c -> rev_keeps false (plains t) [] = true ->
  k < m -> In j (columns (c k)) -> feeds false (plains t) j k.
Proof.
  intros E G Hk Hj. destruct (@rev_safe_rows gz n m t c E G) as (Hi & Hd & Pl & Dn).
  eapply (proj2 (@col_in _ _ _ _ _ _ (Dn k Hk))); eauto.
  Unshelve. intros; now apply bsrun_high.
Qed.

(* Every row is allocated, increasing and below n, whatever the tape. *)
Lemma rows_wf n m (c : crstore) : (forall k, k < m -> col n (fun _ _ => True) c k) ->
  well_formed n m c /\ forall k, k < m -> c k <> None.
Proof.
  intros H. split.
  - intros k Hk. destruct (H k Hk) as (f & -> & _). cbn [columns].
    destruct (@filter_seq_increasing f n 0) as [A B]. split; auto. intros j Hj. apply B in Hj. lia.
  - intros k Hk. destruct (H k Hk) as (f & -> & _). discriminate.
Qed.
Theorem C48_safe_reverse_rows gz n m (t : list (op K)) c :
  rev_safe wb gz n m t = BvRows c -> well_formed n m c /\ forall k, k < m -> c k <> None.
Proof.
  unfold rev_safe. intros E. destruct (counts_ok n m t); [|discriminate E].
  apply rows_wf. eapply strips_rev_pattern; eauto.
Qed.
Theorem C48_safe_reverse_returns gz n m (t : list (op K)) :
  inds t = n -> deps t = m -> forallb is_plain t = true ->
  exists c, rev_safe wb gz n m t = BvRows c.
Proof.
  intros Hi Hd Pl. unfold rev_safe, counts_ok. rewrite Hi, Hd, !Nat.eqb_refl. cbn [andb].
  apply strips_rev_some. intros sd.
  destruct (proj2 (@qsrun_plain row rzero ror (rshort (words_per_batch wb m)) sd t
    (mkQ (fun _ => rzero) gz n m)) Pl) as [q ->]. discriminate.
Qed.

(* tight *)
Lemma rev_tight_cols ps x g gT gz n m (t : list (op K)) c ex e :
  (ex = true -> forall a b : V K, sub K (add K a b) b = a /\ add K (sub K a b) b = a) ->
  rev_tight wb ps x g gT gz n m t = BvRows c ->
  zos_forward ps x g t = Done e -> (0 <= frc e)%Z ->
  traceable ex ps x t 0 g -> tight_ok ex ps x t 0 g ->
  rev_keeps true (operations ps x g t) [] = true ->
  inds t = n /\ deps t = m /\
  forall k, k < m -> col n (good_col n (operations ps x g t)
    (fun c0 => btrun ps x (sbit n c0) t (mkF g 0 [] 3%Z []) f0)) c k.
Proof.
  unfold rev_tight, counts_ok. intros Ex E Z F Tr Ok G.
  destruct (Nat.eqb_spec (inds t) n) as [Hi|]; [|discriminate E].
  destruct (Nat.eqb_spec (deps t) m) as [Hd|]; [|discriminate E]. cbn [andb] in E.
  split; auto. split; auto. rewrite Z in E.
  destruct (Z.ltb_spec (frc e) 0); [lia|].
  eapply strips_rev_pattern; eauto.
  intros s z Es j Hj Hm. cbv beta in Es. injection Es as <-.
  set (k := s * bits_per_strip wb m + j) in *.
  pose proof (@qtrun_hom row rzero ror (colbit wb j) (rshort (words_per_batch wb m))
    (colbit_zero wb j) (colbit_or wb j) K (seed wb m s) (sbit m k) t
    (fun i => @seed_hom wb m s j i W Hj)
    (mkQ (fun _ => rzero) gz n m) (mkQ f0 (fun i => colbit wb j (gz i)) n m) gT (fk e)
    (hq_start j gz n m)) as Q.
  apply zrun_zexec in Z; auto.
  assert (D : forall c0, _) by (intros c0;
    exact (@tight_dual K n m c0 k f0 (fun i => colbit wb j (gz i)) ps x ex Ex t (mkF g 0 [] 3%Z []) e
      f0 [] gT Z Tr Ok ltac:(cbn; lia) G)).
  pose proof (@rev_tight_flow K n m k (fun i => colbit wb j (gz i)) ps x ex Ex t (mkF g 0 [] 3%Z []) e
      [] gT Z Tr Ok ltac:(cbn; lia) Hi G) as R.
  cbn [fi fy length Nat.add] in D, R. rewrite Hi, Hd in D, R.
  destruct (qtrun rzero ror (rshort (words_per_batch wb m)) (seed wb m s) t _) as [[q T1] k1].
  destruct (qtrun false orb orb (sbit m k) t _) as [[q' T2] k2].
  cbn [fst]. destruct Q as [(HA & HZ & _) _]. split.
  - intros c0 Hc. destruct (D c0) as (_ & _ & _ & _ & D').
    rewrite Nat.sub_0_r in D'.
    destruct (D' ltac:(lia) Hc) as [(l & _ & M & _)|[_ M]]; [discriminate M|].
    rewrite HZ. exact M.
  - intros v Hv Hz. rewrite HZ in Hz. destruct R as [_ R].
    destruct (R v ltac:(lia) Hz) as [_ R']. now rewrite !Nat.sub_0_r in R'.
Qed.

Theorem C48_tight_reverse_covers ps x g gT gz n m (t : list (op K)) c ex x' e e' :
  (ex = true -> forall a b : V K, sub K (add K a b) b = a /\ add K (sub K a b) b = a) ->
  rev_tight wb ps x g gT gz n m t = BvRows c ->
  zos_forward ps x g t = Done e -> zos_forward ps x' g t = Done e' ->
  (0 <= frc e)%Z -> (0 <= frc e')%Z ->
  traceable ex ps x t 0 g -> tight_ok ex ps x t 0 g ->
  rev_keeps true (operations ps x g t) [] = true ->
  bvdecisions true ps x g t = bvdecisions true ps x' g t ->
  @covers K m c x x' (fy e) (fy e').
Proof.
  intros Ex E Z Z' F F' Tr Ok G D.
  destruct (@rev_tight_cols ps x g gT gz n m t c ex e Ex E Z F Tr Ok G) as (Hi & Hd & Dn).
  apply (@agree_covers K n) with (ideal := fun c0 => btrun ps x (sbit n c0) t (mkF g 0 [] 3%Z []) f0).
  - intros k Hk j Hj. eapply (proj1 (@col_in _ _ _ _ _ _ (Dn k Hk))); eauto.
    Unshelve. intros; now apply btrun_high.
  - intros c0. rewrite (@btrun_len K ps x _ t _ e); auto. now apply zrun_zexec.
  - apply (@cover_tight K ps x x' n t (mkF g 0 [] 3%Z []) (mkF g 0 [] 3%Z []) e e' (fun _ => f0) (fun _ => [])); auto.
    + intros l _. reflexivity.
    + exists 0. repeat split; auto; intros; lia.
Qed.
Theorem C48_tight_reverse_only_chains ps x g gT gz n m (t : list (op K)) c ex e k j :
  (ex = true -> forall a b : V K, sub K (add K a b) b = a /\ add K (sub K a b) b = a) ->
  rev_tight wb ps x g gT gz n m t = BvRows c ->
  zos_forward ps x g t = Done e -> (0 <= frc e)%Z ->
  traceable ex ps x t 0 g -> tight_ok ex ps x t 0 g ->
  rev_keeps true (operations ps x g t) [] = true ->
  k < m -> In j (columns (c k)) -> feeds false (operations ps x g t) j k.
Proof.
  intros Ex E Z F Tr Ok G Hk Hj.
  destruct (@rev_tight_cols ps x g gT gz n m t c ex e Ex E Z F Tr Ok G) as (Hi & Hd & Dn).
  eapply (proj2 (@col_in _ _ _ _ _ _ (Dn k Hk))); eauto.
  Unshelve. intros; now apply btrun_high.
Qed.
Theorem C48_tight_reverse_rows ps x g gT gz n m (t : list (op K)) c :
  rev_tight wb ps x g gT gz n m t = BvRows c -> well_formed n m c /\ forall k, k < m -> c k <> None.
Proof.
  unfold rev_tight. intros E. destruct (counts_ok n m t); [|discriminate E].
  destruct (zos_forward ps x g t); [|discriminate E].
  destruct (Z.ltb _ _); [discriminate E|].
  apply rows_wf. eapply strips_rev_pattern; eauto.
Qed.
Theorem C48_tight_reverse_returns ps x g gT gz n m (t : list (op K)) e :
  inds t = n -> deps t = m -> zos_forward ps x g t = Done e -> (0 <= frc e)%Z ->
  exists c, rev_tight wb ps x g gT gz n m t = BvRows c.
Proof.
  intros Hi Hd Z F. unfold rev_tight, counts_ok. rewrite Hi, Hd, !Nat.eqb_refl, Z. cbn [andb].
  destruct (Z.ltb_spec (frc e) 0); [lia|].
  apply strips_rev_some. intros sd. discriminate.
Qed.

(* Whatever the direction asked for. *)
Theorem C48_jac_pat_safe_covers d gz n m (t : list (op K)) c ps x x' g e e' :
  jac_pat_safe wb d gz n m t = BvRows c ->
  fwd_keeps (Nat.ltb 1 (words wb n)) t = true -> rev_keeps false (plains t) [] = true ->
  zos_forward ps x g t = Done e -> zos_forward ps x' g t = Done e' ->
  (0 <= frc e)%Z -> (0 <= frc e')%Z ->
  bvdecisions false ps x g t = bvdecisions false ps x' g t ->
  @covers K m c x x' (fy e) (fy e').
Proof.
  unfold jac_pat_safe. intros E G1 G2. destruct (pick d n m) eqn:P;
    eauto using C47_safe_forward_covers, C48_safe_reverse_covers.
Qed.
End Reverse.
