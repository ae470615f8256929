(* C55: traces with externally differentiated functions. *)
From Coq Require Import List Arith Lia ZArith Reals Lra Bool FunctionalExtensionality.
From Coquelicot Require Import Coquelicot.
From Verif Require Import ExtModel ExtSpec.
Import ListNotations.
Open Scope R_scope.

(* ---- blocks ---- *)
Lemma rd_len T a n : length (rd T a n) = n.
Proof. unfold rd. now rewrite map_length, seq_length. Qed.

Lemma rd_nth T a n i : nth i (rd T a n) 0 = if (i <? n)%nat then T (a + i)%nat else 0.
Proof.
  destruct (Nat.ltb_spec i n) as [H|H].
  - rewrite (nth_indep _ 0 (T 0%nat)) by (rewrite rd_len; lia). unfold rd.
    rewrite map_nth. now rewrite seq_nth.
  - apply nth_overflow. rewrite rd_len. lia.
Qed.

Lemma wr_in T a n v i : (a <= i < a + n)%nat -> wr T a n v i = nth (i - a) v 0.
Proof.
  intros [H1 H2]. unfold wr. apply Nat.leb_le in H1. apply Nat.ltb_lt in H2. now rewrite H1, H2.
Qed.

Lemma wr_out T a n v i : (i < a \/ a + n <= i)%nat -> wr T a n v i = T i.
Proof.
  intros H. unfold wr. destruct (Nat.leb_spec a i); [|reflexivity].
  destruct (Nat.ltb_spec i (a + n)); [lia|reflexivity].
Qed.

Lemma in_block (a n i : nat) : {(a <= i < a + n)%nat} + {(i < a \/ a + n <= i)%nat}.
Proof.
  destruct (le_lt_dec a i); [destruct (le_lt_dec (a + n) i)|]; [right|left|right]; lia.
Qed.

Lemma list_nth (l l' : list R) : length l = length l' ->
  (forall i, (i < length l)%nat -> nth i l 0 = nth i l' 0) -> l = l'.
Proof. intros. now apply nth_ext with 0 0. Qed.

Lemma rd_wr_same T a n v : length v = n -> rd (wr T a n v) a n = v.
Proof.
  intros L. apply list_nth; [now rewrite rd_len|]. rewrite rd_len. intros i Hi.
  rewrite rd_nth. destruct (Nat.ltb_spec i n); [|lia]. rewrite wr_in by lia. f_equal. lia.
Qed.

Lemma rd_wr_other T a n v b m : (a + n <= b \/ b + m <= a)%nat -> rd (wr T a n v) b m = rd T b m.
Proof.
  intros L. apply list_nth; [now rewrite !rd_len|]. rewrite rd_len. intros i Hi.
  rewrite !rd_nth. destruct (Nat.ltb_spec i m); [|lia]. rewrite wr_out by lia. reflexivity.
Qed.

Lemma wr_rd T a n : wr T a n (rd T a n) = T.
Proof.
  apply functional_extensionality. intros i. destruct (in_block a n i) as [H|H].
  - rewrite wr_in, rd_nth by assumption. destruct (Nat.ltb_spec (i - a) n); [f_equal; lia|lia].
  - now apply wr_out.
Qed.

Lemma wr_wr T a n v w : wr (wr T a n v) a n w = wr T a n w.
Proof.
  apply functional_extensionality. intros i. destruct (in_block a n i) as [H|H].
  - now rewrite !wr_in.
  - now rewrite !wr_out.
Qed.

Lemma wr_comm T a n v b m w : (a + n <= b \/ b + m <= a)%nat ->
  wr (wr T a n v) b m w = wr (wr T b m w) a n v.
Proof.
  intros L. apply functional_extensionality. intros i.
  destruct (in_block a n i) as [H|H]; destruct (in_block b m i) as [H'|H'].
  - lia.
  - rewrite wr_out, !wr_in by assumption. reflexivity.
  - rewrite wr_in, (wr_out _ a n), wr_in by assumption. reflexivity.
  - now rewrite !wr_out.
Qed.

(* ---- the tape of a program ---- *)
Definition erase1 (s : stmt) : top :=
  match s with Op e => TOp e | Call e n _ m _ => TExt e n m end.

Definition kept1 (F : nat -> edf) (s : stmt) (T : mem) (k : list R) : list R :=
  match s with
  | Op e => T (eres e) :: k
  | Call e n xa m ya => kcall (F e) T xa n ya m k
  end.
Fixpoint kept (F : nat -> edf) (p : list stmt) (T : mem) (k : list R) : list R :=
  match p with
  | [] => k
  | s :: p' => kept F p' (plain1 F T s) (kept1 F s T k)
  end.

Definition placed (E : table) (p : list stmt) : Prop :=
  forall e n xa m ya, In (Call e n xa m ya) p -> E e = mkS xa ya.

Lemma plain1_call F T e n xa m ya : plain1 F T (Call e n xa m ya) =
  wr (wr T xa n (fst (fst (cfun (F e) (rd T xa n) (rd T ya m))))) ya m
     (snd (fst (cfun (F e) (rd T xa n) (rd T ya m)))).
Proof. cbn [plain1]. now destruct (cfun _ _ _) as [[x' y'] rc]. Qed.

Lemma record_all F p : (forall e, contract (F e)) -> forall T E t k,
  let r := record F p (mkR T E t k) in
  rT r = plain F p T /\ rtape r = t ++ map erase1 p /\ rk r = kept F p T k /\
  (forall e, (rE r e = E e /\ forall n xa m ya, ~ In (Call e n xa m ya) p) \/
             exists n xa m ya, In (Call e n xa m ya) p /\ rE r e = mkS xa ya).
Proof.
  intros HC. induction p as [|s p IH]; intros T E t k; cbv zeta.
  - cbn. rewrite app_nil_r. repeat split; auto.
  - assert (S1 : exists E', record1 F s (mkR T E t k) =
        mkR (plain1 F T s) E' (t ++ [erase1 s]) (kept1 F s T k) /\
        (forall e, match s with
          | Call e' _ xa _ ya => E' e = if (e =? e')%nat then mkS xa ya else E e
          | Op _ => E' e = E e end)).
    { destruct s as [o|e n xa m ya]; cbn [record1 plain1 erase1 kept1 rT rE rtape rk].
      - exists E. auto.
      - exists (tset E e (mkS xa ya)). split; [|intros e0; reflexivity].
        destruct (HC e) as (_ & Hx & Hn).
        destruct (cfun (F e) (rd T xa n) (rd T ya m)) as [[x' y'] rc] eqn:Ef.
        f_equal. f_equal. 
        assert (HT : (if nested (F e) then T else ctrash (F e) T) = T).
        { destruct (nested (F e)); [reflexivity|now apply Hn]. }
        rewrite HT. destruct (xchanges (F e)); [reflexivity|].
        pose proof (Hx eq_refl (rd T xa n) (rd T ya m)) as Q. rewrite Ef in Q. cbn in Q. subst x'.
        now rewrite wr_rd. }
    destruct S1 as (E' & S1 & SE). unfold record. cbn [fold_left]. fold (record F p (record1 F s (mkR T E t k))).
    rewrite S1. destruct (IH (plain1 F T s) E' (t ++ [erase1 s]) (kept1 F s T k)) as (A & B & C & D).
    cbn [plain fold_left map kept]. repeat split; auto.
    + rewrite B, <- app_assoc. reflexivity.
    + intros e. specialize (SE e). destruct (D e) as [[D1 D2]|(n & xa & m & ya & D1 & D2)].
      * destruct s as [o|e' n xa m ya].
        -- left. split; [congruence|]. intros ? ? ? ? [H|H]; [discriminate|]. now apply D2 in H.
        -- destruct (Nat.eqb_spec e e') as [Qe|Ne].
           ++ subst e'. right. exists n, xa, m, ya. split; [now left|congruence].
           ++ left. split; [congruence|]. intros ? ? ? ? [H|H]; [congruence|]. now apply D2 in H.
      * right. exists n, xa, m, ya. split; [now right|assumption].
Qed.

Lemma recorded_placed F p T E t k : (forall e, contract (F e)) -> one_place p ->
  placed (rE (record F p (mkR T E t k))) p.
Proof.
  intros HC H1 e n xa m ya Hi.
  destruct (record_all F p HC T E t k) as (_ & _ & _ & D).
  destruct (D e) as [[_ D2]|(n' & xa' & m' & ya' & D1 & D2)].
  - now apply D2 in Hi.
  - rewrite D2. destruct (H1 _ _ _ _ _ _ _ _ _ Hi D1) as [-> ->]. reflexivity.
Qed.

Lemma placed_tl E s p : placed E (s :: p) -> placed E p.
Proof. intros H e n xa m ya Hi. apply H with n m. now right. Qed.

Lemma mindec_min a b : mindec a b = Z.min a b.
Proof. unfold mindec. destruct (Z.ltb_spec b a); lia. Qed.

Lemma zos_all F E p : (forall e, contract (F e)) -> placed E p -> forall T k rc,
  zos F E (map erase1 p) (mkF T k rc) =
  mkF (plain F p T) (kept F p T k) (fold_left Z.min (codes F p T) rc).
Proof.
  intros HC. induction p as [|s p IH]; intros HP T k rc; [reflexivity|].
  unfold zos. cbn [map fold_left]. fold (zos F E (map erase1 p) (zstep F E (erase1 s) (mkF T k rc))).
  destruct s as [o|e n xa m ya].
  - cbn [erase1 zstep fT fk frc]. rewrite IH by (eapply placed_tl; eassumption). reflexivity.
  - cbn [erase1 zstep fT fk frc].
    rewrite (HP e n xa m ya (or_introl eq_refl)). cbn [find fdep].
    destruct (HC e) as (Hz & _ & _). rewrite Hz.
    cbn [plain codes fold_left]. fold (plain F p (plain1 F T (Call e n xa m ya))).
    cbn [kept kept1 plain1].
    destruct (cfun (F e) (rd T xa n) (rd T ya m)) as [[x' y'] rc'] eqn:Ef.
    rewrite IH by (eapply placed_tl; eassumption). rewrite mindec_min. reflexivity.
Qed.

(* Recording runs the program: whatever the callbacks do to the outer tape's
   values, afterwards every variable has the value it has without ADOL-C. *)
Theorem C55_recording F p T k : (forall e, contract (F e)) ->
  forall E t, rT (record F p (mkR T E t k)) = plain F p T.
Proof. intros HC E t. now destruct (record_all F p HC T E t k). Qed.

(* Replaying the trace at any other point computes what the program computes
   there; its return code is the least of 3 and the callbacks' codes; and at the
   point of the recording it keeps what the recording kept. *)
Theorem C55_replay F p T0 E0 k0 T k :
  (forall e, contract (F e)) -> one_place p ->
  let r := record F p (mkR T0 E0 [] k0) in
  let s := zos F (rE r) (rtape r) (mkF T k 3%Z) in
  fT s = plain F p T /\
  frc s = fold_left Z.min (codes F p T) 3%Z /\
  fk (zos F (rE r) (rtape r) (mkF T0 k0 3%Z)) = rk r.
Proof.
  intros HC H1. cbv zeta.
  pose proof (recorded_placed F p T0 E0 [] k0 HC H1) as HP.
  destruct (record_all F p HC T0 E0 [] k0) as (_ & B & K & _). cbv zeta in *.
  rewrite B. cbn [app]. rewrite !zos_all by assumption. cbn [fT frc fk]. auto.
Qed.

(* ---- tangents ---- *)
Lemma lin_sum c : forall a D, lin c a D =
  fold_right Rplus 0 (map (fun q => fst q * snd q) (combine c (map D a))).
Proof.
  induction c as [|p c IH]; intros [|i a] D; cbn; [reflexivity..|]. now rewrite IH.
Qed.

Lemma moves_rd (Tc : R -> mem) (D : mem) s0 a n :
  (forall i, is_derive (fun s => Tc s i) s0 (D i)) -> moves (fun s => rd (Tc s) a n) (rd D a n) s0.
Proof.
  intros H i. rewrite rd_nth.
  apply is_derive_ext with (fun s => if (i <? n)%nat then Tc s (a + i)%nat else 0).
  - intros s. now rewrite rd_nth.
  - destruct (i <? n)%nat; [apply H|]. apply @is_derive_const.
Qed.

Lemma moves_map (Tc : R -> mem) (D : mem) s0 l :
  (forall i, is_derive (fun s => Tc s i) s0 (D i)) -> moves (fun s => map (Tc s) l) (map D l) s0.
Proof.
  intros H i. destruct (le_lt_dec (length l) i) as [Hi|Hi].
  - rewrite nth_overflow by now rewrite map_length.
    apply is_derive_ext with (fun _ => 0).
    + intros s. now rewrite nth_overflow by now rewrite map_length.
    + apply @is_derive_const.
  - rewrite (nth_indep _ 0 (D 0%nat)) by now rewrite map_length. rewrite map_nth.
    apply is_derive_ext with (fun s => Tc s (nth i l 0%nat)).
    + intros s. rewrite (nth_indep _ 0 (Tc s 0%nat)) by now rewrite map_length. now rewrite map_nth.
    + apply H.
Qed.

Lemma der_put (Tc : R -> mem) (D : mem) s0 r (v : R -> R) (d : R) :
  (forall i, is_derive (fun s => Tc s i) s0 (D i)) -> is_derive v s0 d ->
  forall i, is_derive (fun s => put (Tc s) r (v s) i) s0 (put D r d i).
Proof. intros H Hv i. unfold put. destruct (i =? r)%nat; auto. Qed.

Lemma der_wr (Tc : R -> mem) (D : mem) s0 a n (v : R -> list R) d :
  (forall i, is_derive (fun s => Tc s i) s0 (D i)) -> moves v d s0 ->
  forall i, is_derive (fun s => wr (Tc s) a n (v s) i) s0 (wr D a n d i).
Proof. intros H Hv i. unfold wr. destruct (_ && _); auto. Qed.

Lemma fos_all F E p : placed E p -> forall (Tc : R -> mem) (D : mem) s0,
  (forall i, is_derive (fun s => Tc s i) s0 (D i)) ->
  smooth_run F p (Tc s0) ->
  let r := fos F E (map erase1 p) (Tc s0, D) in
  fst r = plain F p (Tc s0) /\
  forall i, is_derive (fun s => plain F p (Tc s) i) s0 (snd r i).
Proof.
  induction p as [|s p IH]; intros HP Tc D s0 HD HS; cbv zeta.
  - cbn. auto.
  - destruct HS as [H1 HS]. unfold fos. cbn [map fold_left].
    fold (fos F E (map erase1 p) (fstep F E (erase1 s) (Tc s0, D))).
    assert (S1 : exists D', fstep F E (erase1 s) (Tc s0, D) = (plain1 F (Tc s0) s, D') /\
       forall i, is_derive (fun t => plain1 F (Tc t) s i) s0 (D' i)).
    { destruct s as [o|e n xa m ya]; cbn [erase1 fstep].
      - eexists. split; [reflexivity|]. cbn [plain1]. apply der_put; [assumption|].
        rewrite lin_sum. apply (H1 (fun s => map (Tc s) (eargs o)) (map D (eargs o))); auto.
        + intros. now rewrite !map_length.
        + now rewrite !map_length.
        + now apply moves_map.
      - rewrite (HP e n xa m ya (or_introl eq_refl)). cbn [find fdep].
        specialize (H1 (fun s => rd (Tc s) xa n) (fun s => rd (Tc s) ya m)
                       (rd D xa n) (rd D ya m) s0 eq_refl eq_refl).
        cbv beta in H1. rewrite !rd_len in H1.
        specialize (H1 (fun s => rd_len (Tc s) xa n) (fun s => rd_len (Tc s) ya m) eq_refl eq_refl
                       (moves_rd Tc D s0 xa n HD) (moves_rd Tc D s0 ya m HD)).
        destruct (cfos (F e) (rd (Tc s0) xa n) (rd D xa n) (rd (Tc s0) ya m) (rd D ya m))
          as [[[x' X'] y'] Y'].
        destruct H1 as (Q & MX & MY).
        eexists. split.
        + rewrite plain1_call, Q. reflexivity.
        + intros i. apply is_derive_ext with
            (fun t => wr (wr (Tc t) xa n (fst (fst (cfun (F e) (rd (Tc t) xa n) (rd (Tc t) ya m)))))
                ya m (snd (fst (cfun (F e) (rd (Tc t) xa n) (rd (Tc t) ya m)))) i).
          * intros t. now rewrite plain1_call.
          * apply (der_wr (fun t => wr (Tc t) xa n (fst (fst (cfun (F e) (rd (Tc t) xa n) (rd (Tc t) ya m)))))
                (wr D xa n X')); [|exact MY].
            apply der_wr; assumption. }
    destruct S1 as (D' & S1 & S2). rewrite S1.
    apply (IH (placed_tl _ _ _ HP) (fun t => plain1 F (Tc t) s) D' s0 S2 HS).
Qed.

(* fos_forward through the external calls computes the derivative of the program
   along any curve of starting values. *)
Theorem C55_tangent F p T0 E0 k0 (Tc : R -> mem) (D : mem) s0 :
  (forall e, contract (F e)) -> one_place p ->
  (forall i, is_derive (fun s => Tc s i) s0 (D i)) ->
  smooth_run F p (Tc s0) ->
  let r := record F p (mkR T0 E0 [] k0) in
  let s := fos F (rE r) (rtape r) (Tc s0, D) in
  fst s = plain F p (Tc s0) /\
  forall i, is_derive (fun s => plain F p (Tc s) i) s0 (snd s i).
Proof.
  intros HC H1 HD HS. cbv zeta.
  pose proof (recorded_placed F p T0 E0 [] k0 HC H1) as HP.
  destruct (record_all F p HC T0 E0 [] k0) as (_ & B & K & _). cbv zeta in *.
  rewrite B. cbn [app]. now apply fos_all.
Qed.

(* ---- adjoints ---- *)
Fixpoint bsum (n : nat) (f : nat -> R) : R :=
  match n with O => 0 | S k => bsum k f + f k end.

Lemma bsum_ext n f g : (forall i, (i < n)%nat -> f i = g i) -> bsum n f = bsum n g.
Proof. intros H. induction n; cbn; [reflexivity|]. rewrite IHn, H; auto. Qed.

Lemma bsum_plus n f g : bsum n (fun i => f i + g i) = bsum n f + bsum n g.
Proof. induction n; cbn; [ring|]. rewrite IHn. ring. Qed.

Lemma bsum_zero n : bsum n (fun _ => 0) = 0.
Proof. induction n; cbn; [reflexivity|]. rewrite IHn. ring. Qed.

Lemma bsum_S n f : bsum (S n) f = f 0%nat + bsum n (fun i => f (S i)).
Proof. induction n; [cbn; ring|]. cbn [bsum] in *. rewrite IHn. ring. Qed.

Lemma bsum_block a n r g :
  bsum (a + n + r) (fun i => if (a <=? i)%nat && (i <? a + n)%nat then g (i - a)%nat else 0) = bsum n g.
Proof.
  induction r as [|r IH].
  - rewrite Nat.add_0_r. induction n as [|n IHn].
    + rewrite Nat.add_0_r. cbn [bsum]. transitivity (bsum a (fun _ => 0)); [|apply bsum_zero].
      apply bsum_ext. intros i Hi. destruct (Nat.leb_spec a i); [lia|reflexivity].
    + rewrite Nat.add_succ_r. cbn [bsum]. f_equal.
      * rewrite <- IHn. apply bsum_ext. intros i Hi.
        destruct (Nat.leb_spec a i); [|reflexivity].
        destruct (Nat.ltb_spec i (S (a + n))); [|lia]. destruct (Nat.ltb_spec i (a + n)); [reflexivity|lia].
      * destruct (Nat.leb_spec a (a + n)); [|lia].
        destruct (Nat.ltb_spec (a + n) (S (a + n))); [|lia]. cbn. f_equal. lia.
  - rewrite Nat.add_succ_r. cbn [bsum]. rewrite IH.
    destruct (Nat.leb_spec a (a + n + r)); [|lia].
    destruct (Nat.ltb_spec (a + n + r) (a + n)); [lia|]. cbn. ring.
Qed.

Lemma dotl_bsum v w : length v = length w ->
  dotl v w = bsum (length v) (fun i => nth i v 0 * nth i w 0).
Proof.
  revert w. induction v as [|a v IH]; intros [|b w] L; try discriminate; [reflexivity|].
  cbn [length dotl]. rewrite bsum_S. cbn [nth]. f_equal. apply IH. now injection L.
Qed.

Lemma dot_bsum N A D : dot N A D = bsum N (fun i => A i * D i).
Proof.
  unfold dot. fold (rd A 0 N). fold (rd D 0 N). rewrite dotl_bsum by now rewrite !rd_len.
  rewrite rd_len. apply bsum_ext. intros i Hi. rewrite !rd_nth.
  destruct (Nat.ltb_spec i N); [reflexivity|lia].
Qed.

Lemma dot_sym N A D : dot N A D = dot N D A.
Proof. rewrite !dot_bsum. apply bsum_ext. intros. ring. Qed.
Lemma dotl_sym v : forall w, dotl v w = dotl w v.
Proof. induction v; intros [|b w]; cbn; auto. rewrite IHv. ring. Qed.

Lemma nth_zeros n i : nth i (repeat 0 n) 0 = 0.
Proof. revert i. induction n; intros [|i]; cbn; auto. Qed.

Lemma dot_wr N A D a n v : (a + n <= N)%nat -> length v = n ->
  dot N (wr A a n v) D = dot N (wr A a n (repeat 0 n)) D + dotl v (rd D a n).
Proof.
  intros Hn L. rewrite !dot_bsum.
  rewrite dotl_bsum by now rewrite rd_len.
  rewrite L, <- (bsum_block a n (N - a - n)). replace (a + n + (N - a - n))%nat with N by lia.
  rewrite <- bsum_plus. apply bsum_ext. intros i Hi. unfold wr.
  destruct (Nat.leb_spec a i); cbn [andb]; [|ring].
  destruct (Nat.ltb_spec i (a + n)); [|ring].
  rewrite nth_zeros, rd_nth. destruct (Nat.ltb_spec (i - a) n); [|lia].
  replace (a + (i - a))%nat with i by lia. ring.
Qed.

Lemma dot_move N A D a n :
  dot N (wr A a n (repeat 0 n)) D = dot N A (wr D a n (repeat 0 n)).
Proof.
  rewrite !dot_bsum. apply bsum_ext. intros i Hi. unfold wr. destruct (_ && _); [|reflexivity].
  rewrite nth_zeros. ring.
Qed.

Lemma dot_put N A D r v : (r < N)%nat -> dot N (put A r v) D = dot N (put A r 0) D + v * D r.
Proof.
  intros H. rewrite !dot_bsum.
  replace (v * D r) with (bsum 1 (fun _ => v * D r)) by (cbn; ring).
  rewrite <- (bsum_block r 1 (N - r - 1)). replace (r + 1 + (N - r - 1))%nat with N by lia.
  rewrite <- bsum_plus. apply bsum_ext. intros i Hi. unfold put.
  destruct (Nat.eqb_spec i r) as [->|Ne].
  - rewrite Nat.leb_refl. destruct (Nat.ltb_spec r (r + 1)); [|lia]. cbn. ring.
  - destruct (Nat.leb_spec r i); cbn [andb]; [|ring]. destruct (Nat.ltb_spec i (r + 1)); [lia|ring].
Qed.

Lemma dot_put_move N A D r : dot N (put A r 0) D = dot N A (put D r 0).
Proof.
  rewrite !dot_bsum. apply bsum_ext. intros i Hi. unfold put. destruct (_ =? _)%nat; ring.
Qed.

Lemma dot_add N A D i q : (i < N)%nat -> dot N (put A i (A i + q)) D = dot N A D + q * D i.
Proof.
  intros H. rewrite dot_put by assumption.
  assert (Q : dot N A D = dot N (put A i 0) D + A i * D i).
  { rewrite <- dot_put by assumption. f_equal. apply functional_extensionality. intros j. unfold put.
    destruct (Nat.eqb_spec j i); congruence. }
  rewrite Q. ring.
Qed.

Lemma dot_scatter N w D c : forall a A, List.Forall (fun i => (i < N)%nat) a ->
  dot N (scatter w c a A) D = dot N A D + w * lin c a D.
Proof.
  induction c as [|p c IH]; intros [|i a] A H; cbn [scatter lin]; try ring.
  inversion H; subst. rewrite IH by assumption. rewrite dot_add by assumption. ring.
Qed.

Lemma put_put T r v w : put (put T r v) r w = put T r w.
Proof. apply functional_extensionality. intros i. unfold put. now destruct (_ =? _)%nat. Qed.
Lemma put_id T r : put T r (T r) = T.
Proof.
  apply functional_extensionality. intros i. unfold put.
  destruct (Nat.eqb_spec i r); congruence.
Qed.

Lemma unkeep_back T a n v k : length v = n -> unkeep true T a n (rev v ++ k) = (wr T a n v, k).
Proof.
  intros L. unfold unkeep. rewrite <- L, <- rev_length.
  rewrite firstn_app, firstn_all, Nat.sub_diag, firstn_O, app_nil_r, rev_involutive.
  rewrite skipn_app, skipn_all, Nat.sub_diag. reflexivity.
Qed.

Lemma bstep_back F E N s T A k :
  (forall e, contract (F e)) -> placed E [s] -> disjoint_call s ->
  adjoint_run F N [s] T ->
  exists A0, bstep F E (erase1 s) (mkB (plain1 F T s) A (kept1 F s T k)) = mkB T A0 k /\
    forall D, fst (fstep F E (erase1 s) (T, D)) = plain1 F T s /\
      dot N A0 D = dot N A (snd (fstep F E (erase1 s) (T, D))).
Proof.
  intros HC HP HD [HA _]. destruct s as [o|e n xa m ya]; cbn [erase1 bstep kept1].
  - cbn [bT bA bk hd tl plain1]. rewrite put_put, put_id. eexists. split; [reflexivity|].
    intros D. cbn [fstep fst snd]. split; [reflexivity|]. destruct HA as [Hr Ha].
    rewrite dot_scatter by assumption. unfold values.
    rewrite (dot_sym N A (put D _ _)), (dot_put N D A) by assumption.
    rewrite (dot_sym N (put D (eres o) 0) A), dot_put_move. ring.
  - rewrite (HP e n xa m ya (or_introl eq_refl)). cbn [find fdep bT bA bk].
    destruct HA as (Hx & Hy & Hp & Ad). cbn [disjoint_call] in HD.
    set (x := rd T xa n) in *. set (y := rd T ya m) in *.
    assert (Lx : length x = n) by apply rd_len. assert (Ly : length y = m) by apply rd_len.
    assert (Lu : length (rd A ya m) = m) by apply rd_len.
    assert (Lz : length (rd A xa n) = n) by apply rd_len.
    (* the values after the call *)
    pose proof (Ad (rd A ya m) (rd A xa n) x y) as A1.
    rewrite Lx, Ly in A1. specialize (A1 Lu Lz eq_refl eq_refl).
    destruct (cfos (F e) x x y y) as [[[x1 X1] y1] Y1].
    destruct A1 as [Q A1].
    assert (P1 : plain1 F T (Call e n xa m ya) = wr (wr T xa n x1) ya m y1).
    { rewrite plain1_call. fold x y. now rewrite Q. }
    assert (Lx1 : length x1 = n /\ length y1 = m).
    { destruct (crev (F e) (rd A ya m) (rd A xa n) x1 y1) as [[z1 ?] ?]. tauto. }
    destruct Lx1 as [Lx1 Ly1].
    rewrite P1, rd_wr_same by assumption.
    rewrite rd_wr_other by lia. rewrite rd_wr_same by assumption.
    destruct (crev (F e) (rd A ya m) (rd A xa n) x1 y1) as [[z1 xr] yr] eqn:Er.
    destruct A1 as (_ & _ & _ & _ & Lz1 & Xr & _).
    unfold kcall. rewrite Hp. fold x y.
    assert (Lyk : forall T0 k0, unkeep true T0 ya m (rev y ++ k0) = (wr T0 ya m y, k0)) by
      (intros; now apply unkeep_back).
    rewrite Lyk.
    assert (Back : exists T2,
        unkeep (xchanges (F e)) (wr (wr (wr (wr (wr T xa n x1) ya m y1) xa n xr) ya m yr) ya m y) xa n
          (if xchanges (F e) then rev x ++ k else k) = (T2, k) /\ T2 = T).
    { destruct (xchanges (F e)).
      - rewrite unkeep_back by assumption. eexists. split; [reflexivity|].
        rewrite wr_wr. rewrite (wr_comm _ xa n xr) by lia. rewrite !wr_wr.
        rewrite (wr_comm _ xa n x1) by lia. rewrite wr_wr.
        rewrite (wr_comm _ ya m y) by lia. unfold x. rewrite wr_rd. unfold y. now rewrite wr_rd.
      - destruct Xr as [Xr|Xr]; [discriminate|]. subst xr.
        cbn [unkeep]. eexists. split; [reflexivity|].
        rewrite wr_wr. rewrite (wr_comm _ xa n x) by lia. rewrite !wr_wr.
        rewrite (wr_comm _ xa n x1) by lia. rewrite wr_wr.
        unfold x. rewrite (wr_comm _ ya m y) by lia. rewrite wr_rd. unfold y. now rewrite wr_rd. }
    destruct Back as (T2 & Bk & ->). rewrite Bk. eexists. split; [reflexivity|].
    intros D. cbn [fstep].
    rewrite (HP e n xa m ya (or_introl eq_refl)). cbn [find fdep]. fold x y.
    specialize (Ad (rd A ya m) (rd A xa n) (rd D xa n) (rd D ya m)).
    rewrite Lx, Ly in Ad. specialize (Ad Lu Lz (rd_len _ _ _) (rd_len _ _ _)).
    destruct (cfos (F e) x (rd D xa n) y (rd D ya m)) as [[[x2 X2] y2] Y2].
    destruct Ad as [Q2 Ad]. rewrite Q in Q2. injection Q2 as <- <-.
    rewrite Er in Ad. destruct Ad as (_ & _ & LX & LY & _ & _ & Dt). cbn [fst snd].
    split; [reflexivity|].
    rewrite dot_wr by assumption. rewrite !dot_move.
    rewrite (dot_sym N A (wr _ ya m Y2)), (dot_wr N _ A ya m Y2) by assumption.
    rewrite (wr_comm D xa n X2) by lia. rewrite (wr_comm D xa n (repeat 0 n)) by lia.
    rewrite (dot_wr N (wr D ya m (repeat 0 m)) A xa n X2) by assumption.
    rewrite (dot_sym N A).
    rewrite (dotl_sym Y2), (dotl_sym X2). lra.
Qed.

Lemma adjoint_run_cons F N s p T : adjoint_run F N (s :: p) T ->
  adjoint_run F N [s] T /\ adjoint_run F N p (plain1 F T s).
Proof. cbn [adjoint_run]. tauto. Qed.

Lemma fosrev_all F E N p : (forall e, contract (F e)) -> placed E p ->
  List.Forall disjoint_call p -> forall T A k, adjoint_run F N p T ->
  exists A0, fosrev F E (map erase1 p) (mkB (plain F p T) A (kept F p T k)) = mkB T A0 k /\
    forall D, fst (fos F E (map erase1 p) (T, D)) = plain F p T /\
      dot N A0 D = dot N A (snd (fos F E (map erase1 p) (T, D))).
Proof.
  intros HC. induction p as [|s p IH]; intros HP HD T A k HA.
  - exists A. cbn. auto.
  - inversion HD as [|? ? D1 D2]; subst. apply adjoint_run_cons in HA. destruct HA as [HA1 HA2].
    destruct (IH (placed_tl _ _ _ HP) D2 (plain1 F T s) A (kept1 F s T k) HA2) as (A1 & R1 & W1).
    assert (HP1 : placed E [s]).
    { intros e n xa m ya [->|[]]. apply HP with n m. now left. }
    destruct (bstep_back F E N s T A1 k HC HP1 D1 HA1) as (A0 & R0 & W0).
    exists A0. split.
    + unfold fosrev. cbn [map rev]. rewrite fold_left_app.
      fold (fosrev F E (map erase1 p) (mkB (plain F (s :: p) T) A (kept F (s :: p) T k))).
      cbn [plain kept fold_left] in *. fold (plain F p (plain1 F T s)). rewrite R1. exact R0.
    + intros D. destruct (W0 D) as [V0 U0].
      destruct (fstep F E (erase1 s) (T, D)) as [T' D'] eqn:Es. cbn [fst snd] in V0, U0. subst T'.
      destruct (W1 D') as [V1 U1].
      unfold fos. cbn [map fold_left].
      fold (fos F E (map erase1 p) (fstep F E (erase1 s) (T, D))). rewrite Es. split; [exact V1|].
      rewrite U0. exact U1.
Qed.

(* A reverse sweep after a forward sweep that kept its values (or right after the
   recording, C55_replay): it gives all variables their old values back, uses up
   exactly the kept values, and is the transpose of fos_forward: the weights A0
   it leaves on the starting values satisfy the dot-product identity with every
   tangent. *)
Theorem C55_reverse F p N T0 E0 k0 T A k :
  (forall e, contract (F e)) -> one_place p -> List.Forall disjoint_call p ->
  adjoint_run F N p T ->
  let r := record F p (mkR T0 E0 [] k0) in
  let s := zos F (rE r) (rtape r) (mkF T k 3%Z) in
  let b := fosrev F (rE r) (rtape r) (mkB (fT s) A (fk s)) in
  bT b = T /\ bk b = k /\
  forall D, dot N (bA b) D = dot N A (snd (fos F (rE r) (rtape r) (T, D))).
Proof.
  intros HC H1 HD HA. cbv zeta.
  pose proof (recorded_placed F p T0 E0 [] k0 HC H1) as HP.
  destruct (record_all F p HC T0 E0 [] k0) as (_ & B & K & _). cbv zeta in *.
  rewrite B. cbn [app]. rewrite zos_all by assumption. cbn [fT fk].
  destruct (fosrev_all F _ N p HC HP HD T A k HA) as (A0 & R0 & W). rewrite R0. cbn [bT bk bA].
  repeat split; auto. intros D. now destruct (W D).
Qed.

(* Together: the adjoints are the gradient of the weighted results. *)
Theorem C55_gradient F p N T0 E0 k0 (Tc : R -> mem) D s0 A k :
  (forall e, contract (F e)) -> one_place p -> List.Forall disjoint_call p ->
  (forall i, is_derive (fun s => Tc s i) s0 (D i)) ->
  smooth_run F p (Tc s0) -> adjoint_run F N p (Tc s0) ->
  let r := record F p (mkR T0 E0 [] k0) in
  let s := zos F (rE r) (rtape r) (mkF (Tc s0) k 3%Z) in
  let b := fosrev F (rE r) (rtape r) (mkB (fT s) A (fk s)) in
  is_derive (fun t => dot N A (plain F p (Tc t))) s0 (dot N (bA b) D).
Proof.
  intros HC H1 HD Hc HS HA. cbv zeta.
  destruct (C55_reverse F p N T0 E0 k0 (Tc s0) A k HC H1 HD HA) as (_ & _ & W).
  destruct (C55_tangent F p T0 E0 k0 Tc D s0 HC H1 Hc HS) as (_ & G). cbv zeta in *.
  rewrite W. rewrite dot_bsum.
  apply is_derive_ext with (fun t => bsum N (fun i => A i * plain F p (Tc t) i)).
  { intros t. now rewrite dot_bsum. }
  set (D' := snd (fos _ _ _ _)) in *. clearbody D'. clear -G. induction N as [|M IH]; cbn [bsum].
  - apply @is_derive_const.
  - apply @is_derive_plus; [exact IH|].
    apply is_derive_scal. apply G.
Qed.
