From Coq Require Import List Arith Lia ZArith Bool.
From Verif Require Import TapeModel TapeSpec.
Import ListNotations.
Set Implicit Arguments.

(** ** Lists *)
Lemma upd_length T (l : list T) i v : length (upd l i v) = length l.
Proof. revert i; induction l; destruct i; simpl; auto. Qed.
Lemma nth_upd T (l : list T) i v j :
  nth_error (upd l i v) j = if (j =? i) && (i <? length l) then Some v else nth_error l j.
Proof.
  revert i j; induction l; intros i j.
  - destruct i; simpl; rewrite Bool.andb_false_r; reflexivity.
  - destruct i, j; simpl; auto. rewrite IHl. reflexivity.
Qed.
Lemma firstn_upd_ge T (l : list T) i v n : n <= i -> firstn n (upd l i v) = firstn n l.
Proof.
  revert i n; induction l; intros [|i] [|n] H; simpl; auto; try lia.
  f_equal. apply IHl. lia.
Qed.
Lemma firstn_upd_S T (l : list T) i v : i < length l ->
  firstn (S i) (upd l i v) = firstn i l ++ [v].
Proof.
  revert i; induction l; intros [|i] H; simpl in *; try lia; auto.
  f_equal. rewrite <- IHl by lia. reflexivity.
Qed.
Lemma skipn_upd_lt T (l : list T) i v n : i < n -> skipn n (upd l i v) = skipn n l.
Proof.
  revert i n; induction l; intros [|i] [|n] H; simpl; auto; try lia.
  apply IHl. lia.
Qed.
Lemma nth_firstn T (l : list T) n i :
  nth_error (firstn n l) i = if i <? n then nth_error l i else None.
Proof.
  revert n i; induction l; intros [|n] [|i]; simpl; auto.
  - destruct (_ <? _); auto.
  - rewrite IHl. reflexivity.
Qed.
Lemma nth_skipn T (l : list T) n i : nth_error (skipn n l) i = nth_error l (n + i).
Proof.
  revert n i; induction l; intros [|n] i; simpl; auto. destruct i; auto.
Qed.
Lemma nth_slice T (l : list T) a n i :
  nth_error (slice l a n) i = if i <? n then nth_error l (a + i) else None.
Proof. unfold slice. rewrite nth_firstn, nth_skipn. reflexivity. Qed.
Lemma slice_length T (l : list T) a n : a + n <= length l -> length (slice l a n) = n.
Proof. intros. unfold slice. rewrite firstn_length, skipn_length. lia. Qed.
Lemma blit_length T (l : list T) a s : a + length s <= length l -> length (blit l a s) = length l.
Proof.
  intros. unfold blit. rewrite !app_length, firstn_length, skipn_length. lia.
Qed.
Lemma nth_blit T (l : list T) a s i : a + length s <= length l ->
  nth_error (blit l a s) i =
    if (a <=? i) && (i <? a + length s) then nth_error s (i - a) else nth_error l i.
Proof.
  intros H. unfold blit.
  destruct (Nat.leb_spec a i); simpl.
  - rewrite nth_error_app2; rewrite firstn_length_le by lia; auto.
    destruct (Nat.ltb_spec i (a + length s)).
    + rewrite nth_error_app1 by lia. reflexivity.
    + rewrite nth_error_app2 by lia. rewrite nth_skipn. f_equal. lia.
  - rewrite nth_error_app1 by (rewrite firstn_length_le; lia).
    rewrite nth_firstn. destruct (Nat.ltb_spec i a); auto; lia.
Qed.
Lemma firstn_blit T (l : list T) a s : a <= length l -> firstn a (blit l a s) = firstn a l.
Proof.
  intros. unfold blit. rewrite firstn_app, firstn_firstn, firstn_length_le, Nat.sub_diag by auto.
  rewrite Nat.min_id. simpl. apply app_nil_r.
Qed.

Lemma sub64_small a b : b <= a -> (Z.of_nat a < 2 ^ 64)%Z -> sub64 a b = Z.of_nat (a - b).
Proof.
  intros. unfold sub64. rewrite Nat2Z.inj_sub by auto. apply Z.mod_small. lia.
Qed.
Lemma gt64_spec a b c : b <= a -> (Z.of_nat a < 2 ^ 64)%Z ->
  gt64 c (sub64 a b) = (a - b <? c).
Proof.
  intros. unfold gt64. rewrite sub64_small by auto.
  destruct (Nat.ltb_spec (a - b) c), (Z.ltb_spec (Z.of_nat (a - b)) (Z.of_nat c)); lia.
Qed.

(** ** One stream being written *)
Definition fcont {T} (b : buf T) : list T := match bfile b with Some f => f | None => [] end.
Definition raw {T} (b : buf T) : list T := fcont b ++ firstn (bpos b) (bdata b).

Record good {T} (cap : nat) (b : buf T) (k p : nat) : Prop := {
  g_cap : length (bdata b) = cap;
  g_pos : bpos b = p;
  g_le : p <= cap;
  g_len : length (fcont b) = k * cap;
  g_none : bfile b = None <-> k = 0;
  g_num : bnum b = k * cap }.

Lemma good_raw_len T cap (b : buf T) k p : good cap b k p -> length (raw b) = k * cap + p.
Proof.
  intros [? ? ? ? ? ?]. unfold raw. rewrite app_length, firstn_length. subst. lia.
Qed.

Lemma write_adv_good T cap (b : buf T) k p v : good cap b k p -> p < cap ->
  exists b', write_adv b v = Some b' /\ good cap b' k (S p) /\ raw b' = raw b ++ [v].
Proof.
  intros [? ? ? ? ? ?] ?. unfold write_adv, bcap.
  destruct (Nat.ltb_spec (bpos b) (length (bdata b))); [|lia].
  eexists; split; [reflexivity|]. split.
  - constructor; simpl; rewrite ?upd_length; auto; lia.
  - unfold raw, fcont; cbn -[firstn]. rewrite firstn_upd_S by lia. apply app_assoc.
Qed.

Lemma put_block_small T ch cap (b : buf T) k p len :
  good cap b k p -> cap < ch -> len <= cap ->
  put_block ch b len =
    Some (mkBuf (bdata b) 0 (bnum b + len) (Some (fcont b ++ firstn len (bdata b))) (brd b)).
Proof.
  intros [? ? ? ? ? ?] ? ?. unfold put_block, bcap. subst cap.
  destruct (Nat.leb_spec len (length (bdata b))); [|lia].
  rewrite (Nat.div_small len ch), (Nat.mod_small len ch) by lia. simpl. reflexivity.
Qed.

Lemma put_block_good T ch cap (b : buf T) k p :
  good cap b k p -> cap < ch -> 0 < cap ->
  exists b', put_block ch b (bcap b) = Some b' /\ good cap b' (S k) 0
    /\ raw b' = raw b ++ skipn p (bdata b) /\ bdata b' = bdata b.
Proof.
  intros G H H0. assert (G' := G). destruct G as [? ? ? ? ? ?]. unfold bcap.
  erewrite put_block_small by (eauto; lia).
  eexists; split; [reflexivity|]. split; [|split; [|reflexivity]].
  - constructor; simpl; auto; try lia.
    + unfold fcont; simpl. fold (fcont b). rewrite app_length, firstn_length. lia.
    + split; [discriminate|lia].
  - unfold raw, fcont; cbn -[firstn]. fold (fcont b). rewrite app_nil_r, firstn_all, <- app_assoc.
    f_equal. subst p. symmetry. apply firstn_skipn.
Qed.

Lemma set_data_good T cap (b : buf T) k p d :
  good cap b k p -> length d = cap -> firstn p d = firstn p (bdata b) ->
  good cap (set_data b d) k p /\ raw (set_data b d) = raw b.
Proof.
  intros [? ? ? ? ? ?] ? E. split.
  - constructor; simpl; auto.
  - unfold raw, fcont; cbn -[firstn]. subst p. rewrite E. reflexivity.
Qed.

(** ** Layout of the recorded events *)
Section Lay.
Variable V : Type.
Variable v0 : V.
Variables capO capL capV : nat.

Inductive ev := EStart | EOp (o : oper V) | EEop | EInt | EVal.

Record st := mkSt { ko : nat; po : nat; kl : nat; pl : nat; kv : nat; pv : nat }.

Definition sub_at {T} (raw : list T) (a : nat) (ls : list T) : Prop :=
  forall i, i < length ls -> nth_error raw (a + i) = nth_error ls i.

Section Raws.
Variable O L : list nat.
Variable W : list V.

Inductive step : ev -> st -> st -> Prop :=
| s_start s : ko s = 0 -> po s = 0 ->
    nth_error O (ko s * capO + po s) = Some start_of_tape ->
    step EStart s (mkSt (ko s) (S (po s)) (kl s) (pl s) (kv s) (pv s))
| s_op s opc ls vs : special opc = false -> 1 <= po s < capO ->
    nth_error O (ko s * capO + po s) = Some opc ->
    pl s + length ls <= capL -> sub_at L (kl s * capL + pl s) ls ->
    pv s + length vs <= capV -> sub_at W (kv s * capV + pv s) vs ->
    step (EOp (opc, ls, vs)) s
      (mkSt (ko s) (S (po s)) (kl s) (pl s + length ls) (kv s) (pv s + length vs))
| s_eop s : po s = capO - 1 ->
    nth_error O (ko s * capO + po s) = Some end_of_op ->
    nth_error O (S (ko s) * capO) = Some end_of_op ->
    step EEop s (mkSt (S (ko s)) 1 (kl s) (pl s) (kv s) (pv s))
| s_int s : 1 <= po s < capO ->
    nth_error O (ko s * capO + po s) = Some end_of_int ->
    pl s < capL -> nth_error L (kl s * capL + (capL - 1)) = Some (capL - pl s) ->
    step EInt s (mkSt (ko s) (S (po s)) (S (kl s)) 0 (kv s) (pv s))
| s_val s : 1 <= po s < capO ->
    nth_error O (ko s * capO + po s) = Some end_of_val ->
    pl s < capL -> pv s <= capV -> length W >= S (kv s) * capV ->
    nth_error L (kl s * capL + pl s) = Some (capV - pv s) ->
    step EVal s (mkSt (ko s) (S (po s)) (kl s) (S (pl s)) (S (kv s)) 0).

Inductive lay : list ev -> st -> st -> Prop :=
| lay_nil s : lay [] s s
| lay_cons e es s s' s'' : step e s s' -> lay es s' s'' -> lay (e :: es) s s''.

Lemma lay_app es1 es2 s s' s'' : lay es1 s s' -> lay es2 s' s'' -> lay (es1 ++ es2) s s''.
Proof. induction 1; simpl; auto. intros. econstructor; eauto. Qed.
Lemma lay_snoc es e s s' s'' : lay es s s' -> step e s' s'' -> lay (es ++ [e]) s s''.
Proof. intros. eapply lay_app; eauto. econstructor; eauto. constructor. Qed.
Lemma lay_split es1 es2 s s'' : lay (es1 ++ es2) s s'' ->
  exists s', lay es1 s s' /\ lay es2 s' s''.
Proof.
  revert s; induction es1; simpl; intros.
  - exists s; split; auto. constructor.
  - inversion H; subst. destruct (IHes1 _ H5) as (s1 & ? & ?). exists s1; split; auto.
    econstructor; eauto.
Qed.
End Raws.

Hypothesis HcapO : 3 <= capO.
Hypothesis HcapL : 0 < capL.

Definition aO s := ko s * capO + po s.
Definition aL s := kl s * capL + pl s.
Definition aV s := kv s * capV + pv s.

Lemma step_mono O L W e s s' : step O L W e s s' ->
  aO s < aO s' /\ aL s <= aL s' /\ aV s <= aV s'
  /\ ko s <= ko s' /\ kl s <= kl s' /\ kv s <= kv s'.
Proof.
  unfold aO, aL, aV. destruct 1; simpl; nia.
Qed.
Lemma lay_mono O L W es s s' : lay O L W es s s' ->
  aO s <= aO s' /\ aL s <= aL s' /\ aV s <= aV s'
  /\ ko s <= ko s' /\ kl s <= kl s' /\ kv s <= kv s'.
Proof.
  induction 1; [lia|]. apply step_mono in H. lia.
Qed.

(** only the cells between the two positions matter *)
Lemma step_agree O L W O' L' W' e s s' :
  step O L W e s s' ->
  (forall i, aO s <= i < aO s' -> nth_error O' i = nth_error O i) ->
  (forall i, aL s <= i < aL s' -> nth_error L' i = nth_error L i) ->
  (forall i, aV s <= i < aV s' -> nth_error W' i = nth_error W i) ->
  length W' >= length W ->
  step O' L' W' e s s'.
Proof.
  intros H HO HL HW HN. unfold aO, aL, aV in *. destruct H; simpl in *.
  - constructor; auto. rewrite HO by lia. auto.
  - constructor; auto.
    + rewrite HO by lia. auto.
    + intros i Hi. rewrite HL by lia. auto.
    + intros i Hi. rewrite HW by lia. auto.
  - constructor; auto.
    + rewrite HO by lia; auto.
    + rewrite HO by lia; auto.
  - constructor; auto.
    + rewrite HO by lia; auto.
    + rewrite HL by nia; auto.
  - constructor; auto; try lia.
    + rewrite HO by lia; auto.
    + rewrite HL by lia; auto.
Qed.
Lemma lay_agree O L W O' L' W' es s s' :
  lay O L W es s s' ->
  (forall i, aO s <= i < aO s' -> nth_error O' i = nth_error O i) ->
  (forall i, aL s <= i < aL s' -> nth_error L' i = nth_error L i) ->
  (forall i, aV s <= i < aV s' -> nth_error W' i = nth_error W i) ->
  length W' >= length W ->
  lay O' L' W' es s s'.
Proof.
  intros H; induction H; intros; [constructor|].
  pose proof (step_mono H). pose proof (lay_mono H0).
  econstructor; [eapply step_agree; eauto|apply IHlay]; auto; intros.
  - apply H1; lia.
  - apply H2; lia.
  - apply H3; lia.
  - apply H1; lia.
  - apply H2; lia.
  - apply H3; lia.
Qed.
Lemma lay_extend O L W o l w es s s' :
  lay O L W es s s' -> length O >= aO s' -> length L >= aL s' -> length W >= aV s' ->
  lay (O ++ o) (L ++ l) (W ++ w) es s s'.
Proof.
  intros. eapply lay_agree; eauto; intros; rewrite ?nth_error_app1 by lia; auto.
  rewrite app_length; lia.
Qed.

Fixpoint ops_of (es : list ev) : list (oper V) :=
  match es with
  | [] => []
  | EOp o :: es' => o :: ops_of es'
  | _ :: es' => ops_of es'
  end.
Lemma ops_of_app a b : ops_of (a ++ b) = ops_of a ++ ops_of b.
Proof. induction a as [|[]]; simpl; auto. rewrite IHa; auto. Qed.

End Lay.

(** ** A finished stream *)
Record closed_stream {T} (cap : nat) (b : buf T) (s : stat) (r : list T) : Prop := {
  c_size : s_size s = cap;
  c_num : s_num s = length r;
  c_cap : length (bdata b) = cap;
  c_acc : s_acc s = true -> bfile b = Some r \/ (bfile b = None /\ r = []);
  c_mem : s_acc s = false -> length r <= cap /\ firstn (length r) (bdata b) = r }.

Lemma close_stream_spec T ch cap flag (b : buf T) k p :
  good cap b k p -> 0 < cap -> cap < ch ->
  exists b' s, close_stream ch flag b = Some (b', s) /\ closed_stream cap b' s (raw b)
    /\ s_acc s = flag || negb (k =? 0).
Proof.
  intros G H0 H1. assert (G' := G). destruct G as [C P LE LN NN NU].
  pose proof (good_raw_len G') as RL.
  unfold close_stream.
  assert (FA : (match bfile b with Some _ => true | None => false end) = negb (k =? 0)).
  { destruct (bfile b) eqn:E.
    - destruct (Nat.eqb_spec k 0); auto. apply NN in e. discriminate.
    - destruct (Nat.eqb_spec k 0); auto. destruct NN as [NN _]. specialize (NN eq_refl). lia. }
  rewrite FA. destruct (flag || negb (k =? 0)) eqn:EF.
  - rewrite P. destruct (Nat.ltb_spec 0 p).
    + rewrite (put_block_small G' H1 LE). eexists _, _. split; [reflexivity|].
      split; [|reflexivity]. constructor; simpl; auto; try discriminate.
      * rewrite RL. lia.
      * intros _. left. unfold raw. rewrite P. reflexivity.
    + assert (p = 0) by lia. subst p. eexists _, _. split; [reflexivity|].
      split; [|reflexivity]. constructor; simpl; auto; try discriminate.
      * rewrite RL. lia.
      * intros _. unfold raw, fcont in *. rewrite H2. simpl. rewrite app_nil_r.
        destruct (bfile b); auto.
  - apply orb_false_iff in EF. destruct EF as (-> & EK).
    apply negb_false_iff, Nat.eqb_eq in EK. subst k.
    eexists _, _. split; [reflexivity|]. split; [|reflexivity].
    assert (NF : bfile b = None) by (apply NN; auto).
    unfold raw, fcont in *. rewrite NF in *. simpl in *.
    constructor; simpl; auto; try discriminate.
    + lia.
    + intros _. rewrite RL. split; [lia|]. rewrite P. reflexivity.
Qed.

(** ** A finished stream being read *)
Record rd {T} (cap : nat) (b : buf T) (s : stat) (r : list T) (k p : nat) : Prop := {
  r_closed : closed_stream cap b s r;
  r_pos : bpos b = p;
  r_data : forall i c, i < cap -> nth_error r (k * cap + i) = Some c -> nth_error (bdata b) i = Some c;
  r_mem : s_acc s = false -> k = 0 }.

(** forward: the file handle stands behind the loaded block *)
Definition fwd {T} (cap : nat) (b : buf T) (s : stat) (r : list T) (k : nat) : Prop :=
  s_acc s = true -> brd b = Nat.min (S k * cap) (length r) /\ bnum b = length r - brd b.
(** backward: the counter is the number of elements before the loaded block *)
Definition bwd {T} (cap : nat) (b : buf T) (s : stat) (r : list T) (k : nat) : Prop :=
  s_acc s = true -> bnum b = k * cap.

Lemma rd_read T cap (b : buf T) s r k p c : rd cap b s r k p -> p < cap ->
  nth_error r (k * cap + p) = Some c ->
  exists b', read_adv b = Some (c, b') /\ rd cap b' s r k (S p)
    /\ (fwd cap b s r k -> fwd cap b' s r k).
Proof.
  intros [[? ? ? ? ?] P D M] H N. unfold read_adv. rewrite P, (D _ _ H N).
  eexists; split; [reflexivity|]. split.
  - constructor; simpl; auto. constructor; simpl; auto.
  - unfold fwd; simpl; auto.
Qed.
Lemma rd_retreat T cap (b : buf T) s r k p c : rd cap b s r k (S p) -> p < cap ->
  nth_error r (k * cap + p) = Some c ->
  exists b', retreat_read b = Some (c, b') /\ rd cap b' s r k p
    /\ (bwd cap b s r k -> bwd cap b' s r k).
Proof.
  intros [[? ? ? ? ?] P D M] H N. unfold retreat_read. rewrite P, (D _ _ H N).
  eexists; split; [reflexivity|]. split.
  - constructor; simpl; auto. constructor; simpl; auto.
  - unfold bwd; simpl; auto.
Qed.

Lemma read_n_small T ch (b : buf T) f n : n < ch -> bfile b = Some f ->
  brd b + n <= length f -> n <= bcap b ->
  exists b', read_n ch b n = Some b' /\ bfile b' = Some f /\ bpos b' = bpos b
    /\ bnum b' = bnum b /\ brd b' = brd b + n /\ length (bdata b') = length (bdata b)
    /\ (forall i c, i < n -> nth_error f (brd b + i) = Some c -> nth_error (bdata b') i = Some c).
Proof.
  intros H F L C. unfold read_n. rewrite Nat.div_small, Nat.mod_small by auto. simpl.
  destruct (Nat.eqb_spec n 0).
  - subst n. exists b. rewrite Nat.add_0_r. repeat split; auto. lia.
  - unfold fread. rewrite F. unfold bcap in *.
    destruct (Nat.leb_spec (brd b + n) (length f)); [|lia].
    destruct (Nat.leb_spec (0 + n) (length (bdata b))); [|lia]. simpl.
    eexists; split; [reflexivity|]. simpl. repeat split; auto.
    + apply blit_length. rewrite slice_length; lia.
    + intros i c Hi N. rewrite nth_blit by (rewrite slice_length; lia).
      rewrite slice_length by lia. simpl.
      destruct (Nat.ltb_spec i n); [|lia]. rewrite Nat.sub_0_r, nth_slice.
      destruct (Nat.ltb_spec i n); [auto|lia].
Qed.
Lemma read_bloc_small T ch (b : buf T) n : n < ch -> read_bloc ch b n = read_n ch b n.
Proof.
  intros. unfold read_bloc, read_n. rewrite Nat.div_small, Nat.mod_small by auto. reflexivity.
Qed.

Lemma rd_block_f T ch cap (b : buf T) s r k p : rd cap b s r k p -> fwd cap b s r k ->
  s_acc s = true -> cap < ch -> 0 < cap -> S k * cap <= length r ->
  exists b1, read_n ch b (Nat.min cap (bnum b)) = Some b1 /\ bnum b1 = bnum b
    /\ rd cap (set_pos (set_num b1 (bnum b1 - Nat.min cap (bnum b))) 0) s r (S k) 0
    /\ fwd cap (set_pos (set_num b1 (bnum b1 - Nat.min cap (bnum b))) 0) s r (S k).
Proof.
  intros [[C1 C2 C3 C4 C5] P D M] F A H H0 HL. destruct (F A) as (F1 & F2).
  rewrite Nat.min_l in F1 by auto.
  destruct (C4 A) as [FF|(_ & ->)]; [|simpl in HL; nia].
  destruct (@read_n_small _ ch b r (Nat.min cap (bnum b))) as (b1 & E & X1 & X2 & X3 & X4 & X5 & X6); auto.
  { lia. } { lia. } { unfold bcap. lia. }
  exists b1. split; auto. split; auto. split.
  - constructor; simpl; auto; try congruence.
    + constructor; simpl; auto; try congruence.
    + intros i c Hi N. apply X6.
      * assert (S k * cap + i < length r) by (apply nth_error_Some; simpl; rewrite N; discriminate).
        lia.
      * rewrite F1. auto.
  - intros _. simpl. simpl in HL. rewrite X3, X4, F2, F1. simpl. lia.
Qed.

Lemma rd_block_r T ch cap (b : buf T) s r k p q : rd cap b s r (S k) p -> bwd cap b s r (S k) ->
  s_acc s = true -> cap < ch -> S k * cap <= length r -> 0 < cap ->
  exists b1, (bnum b <? cap) = false
    /\ read_n ch (fseek b (bnum b - cap)) cap = Some b1 /\ bcap b1 = cap
    /\ (forall i c, i < cap -> nth_error r (k * cap + i) = Some c -> nth_error (bdata b1) i = Some c)
    /\ rd cap (set_pos (set_num b1 (bnum b1 - cap)) q) s r k q
    /\ bwd cap (set_pos (set_num b1 (bnum b1 - cap)) q) s r k.
Proof.
  intros [[C1 C2 C3 C4 C5] P D M] F A H HL H0. specialize (F A).
  destruct (C4 A) as [FF|(_ & ->)]; [|simpl in HL; nia].
  assert (B : bnum b - cap = k * cap) by (simpl in F; lia).
  destruct (@read_n_small _ ch (fseek b (bnum b - cap)) r cap) as (b1 & E & X1 & X2 & X3 & X4 & X5 & X6); auto.
  { simpl. rewrite B. simpl in HL. lia. } { unfold bcap; simpl; lia. }
  simpl in *. rewrite B in *.
  assert (DD : forall i c, i < cap -> nth_error r (k * cap + i) = Some c -> nth_error (bdata b1) i = Some c) by auto.
  exists b1. split; [apply Nat.ltb_ge; lia|].
  split; auto. split; [unfold bcap; lia|]. split; auto. split.
  - constructor; simpl; auto; try congruence.
    constructor; simpl; auto; try congruence.
  - intros _. simpl. lia.
Qed.

