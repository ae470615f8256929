From Coq Require Import List Arith Bool Lia Reals Lra.
From Verif Require Import TnModel TnSpec TnProofs TnEnum TnInterp TnCoeffModel.
Import ListNotations.
Local Open Scope R_scope.

Definition agrees (f : nat -> nat) (v : list nat) : Prop := forall i, (i < length v)%nat -> f i = nth i v 0%nat.

(** ** dbinomi and summand *)
Lemma dbinomi_gbin : forall a b, dbinomi a b = gbin a b.
Proof.
  intros a b. unfold dbinomi. induction b; [reflexivity|].
  rewrite seq_S, fold_left_app. cbn [fold_left gbin]. rewrite IHb. f_equal.
  replace (1 + b)%nat with (S b) by lia. rewrite !S_INR. f_equal. ring.
Qed.
Lemma fold_mul : forall (f : nat -> R) l a, fold_left (fun r i => r * f i) l a = a * fold_right (fun i r => f i * r) 1 l.
Proof. induction l; intros; cbn; [ring|]. rewrite IHl. ring. Qed.
Lemma fold_const : forall (c : R) n s a, fold_left (fun r (_ : nat) => r * c) (seq s n) a = a * c ^ n.
Proof.
  intros c n. induction n; intros; cbn; [ring|]. rewrite IHn. ring.
Qed.
Lemma parity : forall n, (if (n mod 2 =? 1)%nat then -1 else 1) = (-1) ^ n.
Proof.
  induction n as [n IH] using lt_wf_ind. destruct n as [|[|n]]; [cbn; ring|cbn; ring|].
  replace (S (S n)) with (n + 1 * 2)%nat by lia. rewrite Nat.mod_add by lia. rewrite IH by lia.
  rewrite pow_add. cbn. ring.
Qed.
Lemma prod_gb : forall c v k (jm km : nat -> nat), length k = length v ->
  (forall i, (i < length v)%nat -> jm i = nth i v 0%nat) ->
  (forall i, (i < length v)%nat -> km i = nth i k 0%nat) ->
  fold_right (fun i r => dbinomi (c * INR (km i)) (jm i) * r) 1 (seq 0 (length v))
  = gb (map (fun a => c * a) (real k)) v.
Proof.
  intros c. induction v as [|a v IH]; intros [|b k] jm km L J K; try discriminate L; [reflexivity|].
  cbn [length seq fold_right real map gb]. rewrite (J 0%nat), (K 0%nat) by (cbn; lia). cbn [nth].
  rewrite dbinomi_gbin. f_equal. rewrite <- seq_shift.
  transitivity (fold_right (fun i r => dbinomi (c * INR (km (S i))) (jm (S i)) * r) 1 (seq 0 (length v))).
  { generalize (seq 0 (length v)). induction l; [reflexivity|]. cbn [map fold_right]. now rewrite IHl. }
  rewrite (IH k (fun i => jm (S i)) (fun i => km (S i))).
  - reflexivity.
  - injection L as L. exact L.
  - intros i I. rewrite J by (cbn; lia). reflexivity.
  - intros i I. rewrite K by (cbn; lia). reflexivity.
Qed.

Definition term (d : nat) (i j k : list nat) : R :=
  (-1) ^ (list_sum i + list_sum k) * INR (binl i k) *
  (INR (list_sum k) / INR d) ^ (list_sum i) * gb (direction d k) j.

Lemma summand_term : forall d i j k jm km,
  length k = length j -> length i = length j -> agrees jm j -> agrees km k ->
  summand (length j) d jm km (list_sum i) (list_sum k) (INR (binl i k)) = term d i j k.
Proof.
  intros d i j k jm km L Li J K. unfold summand, term.
  rewrite fold_mul, fold_const. rewrite Rmult_1_l.
  assert (fold_right (fun u r => dbinomi (INR (d * km u) / INR (list_sum k)) (jm u) * r) 1 (seq 0 (length j))
          = gb (direction d k) j) as ->.
  { unfold direction. rewrite <- (prod_gb _ j k jm km L J).
    - generalize (seq 0 (length j)). induction l; [reflexivity|]. cbn [fold_right]. rewrite IHl.
      f_equal. f_equal. rewrite mult_INR. unfold Rdiv. ring.
    - intros u U. apply K. lia. }
  f_equal. pose proof (parity (list_sum i + list_sum k)) as P.
  destruct (((list_sum i + list_sum k) mod 2 =? 1)%nat); rewrite <- P; ring.
Qed.

(** ** The loop over k *)
Definition boxnext (i k k' : list nat) : Prop :=
  exists u a t iu n, i = iu ++ n :: t /\ length iu = length u /\ (a < n)%nat /\
    k = u ++ a :: t /\ k' = u ++ S a :: repeat 0%nat (length t).

Lemma chain_app2 : forall R l1 l2 a, chain R (l1 ++ [a]) -> chain R l2 ->
  (forall b, hd_error l2 = Some b -> R a b) -> chain R ((l1 ++ [a]) ++ l2).
Proof. exact chain_app. Qed.
Lemma box_hd : forall i, hd_error (box i) = Some (repeat 0%nat (length i)).
Proof.
  induction i as [|n i IH]; [reflexivity|]. cbn [box seq flat_map].
  destruct (box i); [discriminate IH|]. injection IH as ->. reflexivity.
Qed.
Lemma box_last : forall i, exists l, box i = l ++ [i].
Proof.
  induction i as [|n i (l & IH)]; [exists []; reflexivity|].
  cbn [box]. rewrite seq_S, flat_map_app. cbn [flat_map Nat.add]. rewrite app_nil_r, IH, map_app.
  eexists. rewrite app_assoc. reflexivity.
Qed.
Lemma box_map_chain : forall n i a l, chain (boxnext i) l -> chain (boxnext (n :: i)) (map (cons a) l).
Proof.
  intros n i a. induction l as [|v l IH]; [trivial|]. cbn [map]. intros H. destruct l as [|w l]; [exact I|].
  cbn [map]. destruct H as [(u & b & t & iu & m & -> & L & B & -> & ->) H]. split; [|apply IH; exact H].
  exists (a :: u), b, t, (n :: iu), m. cbn [app length]. repeat split; try assumption. now rewrite L.
Qed.
Lemma box_chain : forall i, chain (boxnext i) (box i).
Proof.
  induction i as [|n i IH]; [exact I|]. cbn [box].
  assert (forall k, (k <= S n)%nat ->
    chain (boxnext (n :: i)) (flat_map (fun a => map (cons a) (box i)) (seq (S n - k) k))
    /\ ((0 < k)%nat -> hd_error (flat_map (fun a => map (cons a) (box i)) (seq (S n - k) k))
          = Some ((S n - k)%nat :: repeat 0%nat (length i)))) as G.
  { induction k; intros K; [split; [exact I|lia]|].
    specialize (IHk ltac:(lia)) as [A B]. cbn [seq flat_map].
    replace (S (S n - S k)) with (S n - k)%nat by lia. split.
    - destruct (box_last i) as (l & E). pose proof (box_map_chain n i (S n - S k)%nat _ IH) as M.
      rewrite E in M |- * at 1. rewrite map_app in M |- *. cbn [map] in M |- *.
      apply chain_app; [exact M|exact A|].
      intros b Hb. destruct k; [discriminate Hb|]. rewrite B in Hb by lia. injection Hb as <-.
      exists [], (S n - S (S k))%nat, i, [], n. cbn [app length]. repeat split; try lia.
      f_equal. lia.
    - intros _. pose proof (box_hd i) as H. destruct (box i); [discriminate H|].
      injection H as ->. reflexivity. }
  specialize (G (S n) ltac:(lia)). replace (S n - S n)%nat with 0%nat in G by lia. apply G.
Qed.

Lemma advance_reset : forall n b im km ok bz,
  (forall t, (t < n)%nat -> km (b + t)%nat = im (b + t)%nat) ->
  exists km', advance im km (b + n) ok bz =
     advance im km' b (ok - list_sum (map km (seq b n))) bz /\
     forall j, km' j = if ((b <=? j) && (j <? b + n))%nat then 0%nat else km j.
Proof.
  induction n; intros b im km ok bz H.
  - exists km. rewrite Nat.add_0_r. split; [cbn; now rewrite Nat.sub_0_r|].
    intros j. destruct (Nat.leb_spec b j), (Nat.ltb_spec j b); try lia; reflexivity.
  - replace (b + S n)%nat with (S (b + n)) by lia. cbn [advance].
    rewrite (H n) by lia. rewrite Nat.ltb_irrefl.
    destruct (IHn b im (put km (b + n) 0%nat) (ok - im (b + n)%nat)%nat bz) as (km' & E & F).
    { intros t T. unfold put. destruct (Nat.eqb_spec (b + t) (b + n)); [lia|]. apply H. lia. }
    exists km'. split.
    + rewrite E. f_equal. rewrite seq_S, map_app, list_sum_app. cbn [map].
      rewrite <- (H n) by lia.
      assert (map (put km (b + n) 0%nat) (seq b n) = map km (seq b n)) as ->.
      { apply map_ext_in. intros x X. apply in_seq in X. unfold put.
        destruct (Nat.eqb_spec x (b + n)); [lia|reflexivity]. }
      unfold list_sum at 2. cbn [fold_right]. unfold list_sum. cbn [fold_right]. lia.
    + intros j. rewrite F. unfold put.
      destruct (Nat.leb_spec b j), (Nat.ltb_spec j (b + n)), (Nat.ltb_spec j (S (b + n))), (Nat.eqb_spec j (b + n)); try lia; reflexivity.
Qed.

Lemma binl_app : forall iu u i k, length iu = length u -> binl (iu ++ i) (u ++ k) = (binl iu u * binl i k)%nat.
Proof.
  induction iu; intros [|b u] i k L; try discriminate L; cbn [app binl]; [lia|].
  rewrite IHiu by (injection L as L; exact L). lia.
Qed.
Lemma binl_diag : forall t, binl t t = 1%nat.
Proof. induction t; [reflexivity|]. cbn [binl]. rewrite IHt, C_diag. reflexivity. Qed.
Lemma binl_zeros : forall t, binl t (repeat 0%nat (length t)) = 1%nat.
Proof. induction t; [reflexivity|]. cbn [length repeat binl]. rewrite IHt, C_0. reflexivity. Qed.
Lemma C_next : forall n a, (a < n)%nat -> INR (C n (S a)) = INR (C n a) * INR (n - S a + 1) / INR (S a).
Proof.
  intros n a H. apply (Rmult_eq_reg_l (INR (S a))); [|apply Sn0].
  transitivity (INR (C n a) * INR (n - S a + 1)); [|field; apply Sn0].
  rewrite <- !mult_INR. f_equal. destruct n as [|n]; [lia|].
  assert (S a * C (S n) (S a) + S a * C (S n) a = S a * C (S (S n)) (S a))%nat as P by (rewrite (C_S (S n) a); lia).
  rewrite (C_absorb (S n) a) in P.
  replace (S n - S a + 1)%nat with (S n - a)%nat by lia. nia.
Qed.
Lemma list_sum_zeros : forall n, list_sum (repeat 0%nat n) = 0%nat.
Proof. induction n; [reflexivity|]. cbn. exact IHn. Qed.
Lemma list_sum_cons : forall a l, list_sum (a :: l) = (a + list_sum l)%nat.
Proof. reflexivity. Qed.

Lemma map_agrees : forall km u t, agrees km (u ++ t) -> map km (seq (length u) (length t)) = t.
Proof.
  intros km u t H. apply (nth_ext _ _ 0%nat 0%nat).
  - now rewrite map_length, seq_length.
  - intros n N. rewrite map_length, seq_length in N.
    rewrite (nth_indep _ 0%nat (km 0%nat)) by now rewrite map_length, seq_length.
    rewrite map_nth, seq_nth by assumption.
    rewrite H by (rewrite app_length; lia). rewrite app_nth2 by lia. f_equal. lia.
Qed.

Lemma advance_ok : forall i k k' im km, boxnext i k k' -> agrees im i -> agrees km k ->
  exists km', advance im km (length i) (list_sum k) (INR (binl i k)) =
    (km', list_sum k', INR (binl i k'), true) /\ agrees km' k' /\ length k' = length i.
Proof.
  intros i k k' im km (u & a & t & iu & n & -> & L & A & -> & ->) I K.
  rewrite app_length. cbn [length].
  assert (forall x, (x < length t)%nat -> km (S (length u) + x)%nat = im (S (length u) + x)%nat) as E.
  { intros x X. rewrite K, I by (rewrite app_length; cbn [length]; lia).
    rewrite !nth_mid. rewrite L.
    destruct (Nat.ltb_spec (S (length u) + x) (length u)); [lia|].
    destruct (Nat.eqb_spec (S (length u) + x) (length u)); [lia|]. reflexivity. }
  destruct (advance_reset (length t) (S (length u)) im km (list_sum (u ++ a :: t)) (INR (binl (iu ++ n :: t) (u ++ a :: t))) E)
    as (km' & Q & F).
  replace (length iu + S (length t))%nat with (S (length u) + length t)%nat by lia. rewrite Q.
  assert (km (length u) = a) as Ka.
  { rewrite K by (rewrite app_length; cbn [length]; lia). rewrite nth_mid, Nat.ltb_irrefl, Nat.eqb_refl. reflexivity. }
  assert (im (length u) = n) as In'.
  { rewrite I by (rewrite app_length; cbn [length]; lia).
    rewrite nth_mid, L, Nat.ltb_irrefl, Nat.eqb_refl. reflexivity. }
  assert (km' (length u) = a) as Ka'.
  { rewrite F. destruct (Nat.leb_spec (S (length u)) (length u)); [lia|]. exact Ka. }
  cbn [advance]. rewrite Ka', In'. rewrite (proj2 (Nat.ltb_lt a n) A).
  eexists. split; [|split].
  - assert (map km (seq (S (length u)) (length t)) = t) as Mt.
    { replace (S (length u)) with (length (u ++ [a])) by (rewrite app_length; cbn; lia).
      apply map_agrees. rewrite <- app_assoc. exact K. }
    rewrite Mt. f_equal. f_equal. f_equal.
    + rewrite !list_sum_app, !list_sum_cons, list_sum_zeros. lia.
    + unfold put. rewrite Nat.eqb_refl. rewrite !binl_app by assumption. cbn [binl].
      rewrite binl_diag, binl_zeros, !mult_INR. replace (a + 1)%nat with (S a) by lia.
      rewrite (C_next n a A). unfold Rdiv. ring.
  - intros j J. rewrite app_length in J. cbn [length] in J. rewrite repeat_length in J.
    unfold put. rewrite nth_mid. destruct (Nat.eqb_spec j (length u)) as [->|].
    + rewrite Nat.ltb_irrefl. lia.
    + rewrite F. rewrite K by (rewrite app_length; cbn [length]; lia). rewrite nth_mid.
      destruct (Nat.ltb_spec j (length u)).
      * destruct (Nat.leb_spec (S (length u)) j); [lia|]. reflexivity.
      * destruct (Nat.leb_spec (S (length u)) j); [|lia].
        destruct (Nat.ltb_spec j (S (length u) + length t)); [|lia]. cbn [andb].
        destruct (Nat.eqb_spec j (length u)); [lia|]. rewrite nth_repeat. reflexivity.
  - rewrite !app_length. cbn [length]. rewrite repeat_length. lia.
Qed.
Lemma advance_end : forall i im km bz, agrees im i -> agrees km i ->
  exists km', advance im km (length i) (list_sum i) bz = (km', 0%nat, bz, false) /\
    agrees km' (repeat 0%nat (length i)).
Proof.
  intros i im km bz I K.
  destruct (advance_reset (length i) 0 im km (list_sum i) bz) as (km' & E & F).
  { intros t T. cbn [Nat.add]. now rewrite I, K. }
  exists km'. cbn [Nat.add] in E. rewrite E. cbn [advance]. split.
  - pose proof (map_agrees km [] i K) as M. cbn [length] in M. rewrite M. now rewrite Nat.sub_diag.
  - intros j J. rewrite repeat_length in J. rewrite F, nth_repeat.
    destruct (Nat.ltb_spec j (0 + length i)); [reflexivity|lia].
Qed.

Lemma kloop_ok : forall l fuel i j k jm im km sum, (length l < fuel)%nat ->
  (exists pre, box i = pre ++ k :: l) ->
  length i = length j -> agrees jm j -> agrees im i -> agrees km k ->
  exists km', kloop fuel (length j) (*d*) (list_sum j) jm im (list_sum i) km (list_sum k) (INR (binl i k)) sum
    = Some (km', 0%nat, sum + rsum (term (list_sum j) i j) l) /\ agrees km' (repeat 0%nat (length i)).
Proof.
  induction l as [|k' l IH]; intros fuel i j k jm im km sum Fu (pre & E) L J I K;
    (destruct fuel as [|fuel]; [cbn in Fu; lia|]); cbn [kloop].
  - assert (k = i) as ->.
    { destruct (box_last i) as (l' & E'). rewrite E' in E. apply app_inj_tail in E. now symmetry. }
    rewrite <- L. destruct (advance_end i im km (INR (binl i i)) I K) as (km' & Q & F). rewrite Q.
    exists km'. split; [|exact F]. cbn [rsum]. rewrite Rplus_0_r. reflexivity.
  - assert (boxnext i k k') as B.
    { apply (chain_nth _ (box i) (length pre)); [apply box_chain| |].
      - rewrite E, nth_error_app2, Nat.sub_diag by lia. reflexivity.
      - rewrite E, nth_error_app2 by lia. replace (S (length pre) - length pre)%nat with 1%nat by lia. reflexivity. }
    destruct (advance_ok i k k' im km B I K) as (km' & Q & F & Lk). rewrite L in Q. rewrite Q.
    rewrite (summand_term (list_sum j) i j k' jm km') by (try assumption; congruence).
    destruct (IH fuel i j k' jm im km' (sum + term (list_sum j) i j k')) as (km2 & R & F2); try assumption.
    + cbn in Fu. lia.
    + exists (pre ++ [k]). rewrite <- app_assoc. exact E.
    + exists km2. split; [|exact F2]. rewrite R. cbn [rsum]. f_equal. f_equal. ring.
Qed.

Lemma gamma_tail : forall d i j l, box i = repeat 0%nat (length i) :: l ->
  gamma d i j = rsum (term d i j) l.
Proof.
  intros d i j l E. unfold gamma. rewrite E. cbn [filter]. rewrite list_sum_zeros. cbn [Nat.eqb negb].
  fold (term d i j). f_equal.
  assert (forall k, In k l -> list_sum k <> 0%nat) as H.
  { assert (NoDup (box i)) as U.
    { clear. induction i as [|n i IH]; cbn [box]; [repeat constructor; intros []|].
      assert (forall l, NoDup l -> NoDup (flat_map (fun a => map (cons a) (box i)) l)) as G.
      { induction l; intros U; [constructor|]. inversion U; subst. cbn [flat_map]. apply NoDup_cat.
        - apply FinFun.Injective_map_NoDup; [|exact IH]. intros x y E. congruence.
        - now apply IHl.
        - intros b I J. apply in_map_iff in I. destruct I as (w & <- & _).
          apply in_flat_map in J. destruct J as (a' & A & J). apply in_map_iff in J.
          destruct J as (w' & E & _). injection E as -> _. contradiction. }
      apply G. apply seq_NoDup. }
    rewrite E in U. inversion U; subst. intros k K Z.
    assert (length k = length i) as Lk by (apply box_length; rewrite E; now right).
    assert (k = repeat 0%nat (length i)) as ->; [|contradiction].
    rewrite <- Lk. clear - Z. induction k; [reflexivity|]. rewrite list_sum_cons in Z.
    cbn [length repeat]. replace a with 0%nat by lia. f_equal. apply IHk. lia. }
  clear E. induction l; [reflexivity|]. cbn [filter].
  destruct (Nat.eqb_spec (list_sum a) 0) as [Q|Q]; [destruct (H a (or_introl eq_refl) Q)|].
  cbn [negb]. f_equal. apply IHl. intros. apply H. now right.
Qed.

(* a direction variable that does not occur in i gives coefficient zero *)
Lemma gb_zero_coord : forall d k j u, length k = length j -> nth u k 0%nat = 0%nat -> (0 < nth u j 0%nat)%nat ->
  gb (direction d k) j = 0.
Proof.
  intros d k j u L K J. unfold direction. generalize (INR d / INR (list_sum k)). intros c.
  revert k j L K J. induction u; intros [|a k] [|b j] L K J; try discriminate L; try (cbn in J; lia);
    cbn [nth real map gb] in *.
  - subst a. destruct b; [lia|].
    assert (forall n, gbin (c * INR 0) (S n) = 0) as Z.
    { cbn [INR]. rewrite Rmult_0_r. induction n; cbn [gbin] in *; [cbn [INR]; field|rewrite IHn; ring]. }
    rewrite Z. ring.
  - fold (real k). injection L as L. rewrite (IHu k j) by assumption. ring.
Qed.
Lemma box_le : forall i k u, In k (box i) -> (nth u k 0 <= nth u i 0)%nat.
Proof.
  induction i as [|n i IH]; intros k u H; cbn [box] in H.
  - destruct H as [<-|[]]. lia.
  - apply in_flat_map in H. destruct H as (b & B & H). apply in_map_iff in H. destruct H as (k' & <- & H).
    apply in_seq in B. destruct u; cbn [nth]; [lia|]. now apply IH.
Qed.
Lemma gamma_invalid : forall d i j u, length i = length j -> nth u i 0%nat = 0%nat -> (0 < nth u j 0%nat)%nat ->
  gamma d i j = 0.
Proof.
  intros d i j u L Iu J. unfold gamma. apply rsum_zero. intros k K. apply filter_In in K. destruct K as [K _].
  rewrite (gb_zero_coord d k j u); [ring| | |assumption].
  - rewrite (box_length i k K). assumption.
  - pose proof (box_le i k u K). lia.
Qed.

Lemma isum_ok : forall fuel i j jm im km, (length (box i) <= fuel)%nat ->
  length i = length j -> agrees jm j -> agrees im i -> agrees km (repeat 0%nat (length i)) ->
  exists km', isum fuel (length j) (list_sum j) jm im (list_sum i) km 0%nat
    = Some (km', 0%nat, gamma (list_sum j) i j) /\ agrees km' (repeat 0%nat (length i)).
Proof.
  intros fuel i j jm im km Fu L J I K. unfold isum.
  pose proof (box_hd i) as H. destruct (box i) as [|z l] eqn:E; [discriminate H|]. injection H as ->.
  destruct (existsb _ _) eqn:X.
  - apply existsb_exists in X. destruct X as (u & U & X). apply in_seq in U.
    apply andb_prop in X. destruct X as [X1 X2]. apply Nat.ltb_lt in X1. apply Nat.eqb_eq in X2.
    rewrite J in X1 by lia. rewrite I in X2 by lia.
    exists km. split; [|exact K]. rewrite (gamma_invalid _ i j u); [reflexivity|assumption|assumption|lia].
  - rewrite (gamma_tail _ i j l E).
    destruct (kloop_ok l fuel i j (repeat 0%nat (length i)) jm im km 0) as (km' & R & F); try assumption.
    + exists []. exact E.
    + exists km'. split; [|exact F]. rewrite list_sum_zeros, binl_zeros in R. cbn [INR] in R.
      rewrite R, Rplus_0_l. reflexivity.
Qed.

(** ** The loops over i and j *)
Definition item_of (d : nat) (j i : list nat) : list item :=
  if Rlt_dec 0 (Rabs (gamma d i j))
  then [mkItem (coeff_address (length i) d (list_sum i) (array i)) (list_sum i) (gamma d i j)] else [].

Lemma coeff_address_ext : forall p d o f g, (forall i, (i < p)%nat -> f i = g i) ->
  coeff_address p d o f = coeff_address p d o g.
Proof.
  intros p d o f g H. unfold coeff_address. f_equal.
  assert (forall l s, (forall i, In i l -> (i < p)%nat) ->
    fold_left (fun (s : nat * nat) u => let '(address, j) := s in
       if (f u =? 0)%nat then (address, j)
       else ((address + ((j + f u) * binomi (u + j + f u) (j + f u) - binomi (u + j) j * j) / (1 + (u + j) - j))%nat, (j + f u)%nat)) l s
    = fold_left (fun (s : nat * nat) u => let '(address, j) := s in
       if (g u =? 0)%nat then (address, j)
       else ((address + ((j + g u) * binomi (u + j + g u) (j + g u) - binomi (u + j) j * j) / (1 + (u + j) - j))%nat, (j + g u)%nat)) l s) as G.
  { induction l; intros s I; [reflexivity|]. cbn [fold_left]. rewrite (H a) by (apply I; now left).
    apply IHl. intros. apply I. now right. }
  apply G. intros i I. apply in_seq in I. lia.
Qed.

Lemma last_vector : forall p o v, In v (vectors (S p) o) ->
  ((nth p v 0 =? o)%nat = true <-> v = repeat 0%nat p ++ [o]).
Proof.
  intros p o v I. apply vectors_in in I. destruct I as [L Sm]. split.
  - intros E. apply Nat.eqb_eq in E.
    destruct (exists_last (l := v)) as (w & x & ->); [destruct v; discriminate|].
    rewrite app_length in L. cbn [length] in L. assert (length w = p) as Lw by lia.
    rewrite app_nth2 in E by lia. rewrite Lw, Nat.sub_diag in E. cbn [nth] in E. subst x.
    rewrite list_sum_app in Sm. rewrite list_sum_cons in Sm. change (list_sum []) with 0%nat in Sm.
    f_equal. assert (list_sum w = 0%nat) as Z by lia. rewrite <- Lw. clear - Z.
    induction w; [reflexivity|]. rewrite list_sum_cons in Z. cbn. f_equal; [lia|]. apply IHw. lia.
  - intros ->. apply Nat.eqb_eq. rewrite app_nth2; rewrite repeat_length; [|lia]. now rewrite Nat.sub_diag.
Qed.

Lemma imloop_ok : forall rest fuel o j i jm im km items,
  (exists pre, vectors (length j) o = pre ++ i :: rest) ->
  (length rest < fuel)%nat -> (forall i, In i (vectors (length j) o) -> (length (box i) <= fuel - length rest)%nat) ->
  (0 < length j)%nat ->
  agrees jm j -> agrees im i -> agrees km (repeat 0%nat (length j)) ->
  exists im' km', imloop fuel (length j) (list_sum j) jm im o km 0%nat items
    = Some (im', km', 0%nat, items ++ flat_map (item_of (list_sum j) j) (i :: rest))
    /\ agrees im' (repeat 0%nat (length j - 1) ++ [o]) /\ agrees km' (repeat 0%nat (length j)).
Proof.
  induction rest as [|i' rest IH]; intros fuel o j i jm im km items (pre & E) Fu Fb P J I K;
    (destruct fuel as [|fuel]; [cbn in Fu; lia|]);
    (assert (In i (vectors (length j) o)) as Ini by (rewrite E; apply in_elt));
    (pose proof (proj1 (vectors_in _ _ _) Ini) as [Li Si]);
    cbn [imloop];
    (destruct (isum_ok (S fuel) i j jm im km) as (km' & Q & F);
      [specialize (Fb i Ini); lia|assumption|assumption|assumption|now rewrite Li|]);
    rewrite Si in Q; rewrite Q; rewrite Li in F;
    (assert (coeff_address (length j) (list_sum j) o im = coeff_address (length i) (list_sum j) (list_sum i) (array i)) as Ea
      by (rewrite Li, Si; apply coeff_address_ext; intros x X; apply I; lia));
    (assert (im (length j - 1)%nat = nth (length j - 1) i 0%nat) as Im by (apply I; lia)).
  - assert (i = repeat 0%nat (length j - 1) ++ [o]) as Ei.
    { destruct (length j) as [|p]; [lia|]. destruct (vectors_last p o) as (l' & E'). rewrite E' in E.
      apply app_inj_tail in E. destruct E as [_ E]. rewrite <- E. f_equal. f_equal. lia. }
    assert ((im (length j - 1)%nat =? o)%nat = true) as Eo.
    { rewrite Im, Ei. rewrite app_nth2; rewrite repeat_length; [|lia]. rewrite Nat.sub_diag. apply Nat.eqb_refl. }
    rewrite Eo. cbn [orb]. exists im, km'. split; [|split; [|exact F]].
    + f_equal. f_equal. cbn [flat_map]. rewrite app_nil_r. unfold item_of. rewrite <- Ea, Si.
      destruct (Rlt_dec _ _); [reflexivity|now rewrite app_nil_r].
    + rewrite <- Ei. exact I.
  - assert (i <> repeat 0%nat (length j - 1) ++ [o]) as Ni.
    { intros Ei. destruct (length j) as [|p]; [lia|]. destruct (vectors_last p o) as (l' & E').
      pose proof (vectors_nodup (S p) o) as U. rewrite E in U.
      replace (S p - 1)%nat with p in Ei by lia. rewrite E in E'. 
      assert (last (pre ++ i :: i' :: rest) [] = i) as La.
      { rewrite E', last_last. now symmetry. }
      apply NoDup_remove_2 in U. apply U. apply in_or_app. right.
      rewrite <- La.
      assert (forall (A : Type) (d x : A) l, In (last (x :: l) d) (x :: l)) as InL.
      { clear. intros A d x l. revert x. induction l as [|y l IH]; intros x; [now left|]. right. apply IH. }
      assert (last (pre ++ i :: i' :: rest) [] = last (i' :: rest) []) as ->.
      { clear. induction pre as [|q pre IH]; [reflexivity|]. cbn [app].
        destruct (pre ++ i :: i' :: rest) eqn:Z; [destruct pre; discriminate Z|]. exact IH. }
      apply InL. }
    assert ((im (length j - 1)%nat =? o)%nat = false) as Eo.
    { rewrite Im. destruct (length j) as [|p]; [lia|]. replace (S p - 1)%nat with p in * by lia.
      destruct (nth p i 0%nat =? o)%nat eqn:Z; [|reflexivity]. apply (last_vector p o i Ini) in Z. contradiction. }
    assert ((length j =? 1)%nat = false) as Ej.
    { apply Nat.eqb_neq. intros Z. rewrite Z in *. apply Ni. cbn. destruct i as [|x [|]]; try discriminate Li.
      rewrite list_sum_cons in Si. change (list_sum []) with 0%nat in Si. f_equal. lia. }
    rewrite Eo, Ej. cbn [orb].
    assert (lexnext i i') as Nx.
    { destruct (length j) as [|p]; [lia|].
      apply (chain_nth _ (vectors (S p) o) (length pre)); [apply vectors_chain| |].
      - rewrite E, nth_error_app2, Nat.sub_diag by lia. reflexivity.
      - rewrite E, nth_error_app2 by lia. replace (S (length pre) - length pre)%nat with 1%nat by lia. reflexivity. }
    destruct (next_jm_ok i i' im Nx I) as [Li' N'].
    rewrite Li in N', Li'.
    destruct (IH fuel o j i' jm (next_jm (length j) im) km'
      (if Rlt_dec 0 (Rabs (gamma (list_sum j) i j))
       then items ++ [mkItem (coeff_address (length j) (list_sum j) o im) o (gamma (list_sum j) i j)]
       else items)) as (im2 & km2 & R & F2 & F3); try assumption.
    + exists (pre ++ [i]). rewrite <- app_assoc. exact E.
    + cbn in Fu. lia.
    + intros x X. apply N'. lia.
    + exists im2, km2. split; [|split; assumption]. rewrite R. f_equal. f_equal.
      change (flat_map (item_of (list_sum j) j) (i :: i' :: rest))
        with (item_of (list_sum j) j i ++ flat_map (item_of (list_sum j) j) (i' :: rest)).
      unfold item_of at 2. rewrite <- Ea, Si.
      destruct (Rlt_dec _ _); [now rewrite <- app_assoc|reflexivity].
Qed.
