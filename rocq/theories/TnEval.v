(** C34: tensor_eval returns all derivative tensors. *)
From Coq Require Import List Arith Bool Lia Reals Lra.
From Verif Require Import TnModel TnSpec TnProofs TnEnum TnInterp TnCoeffModel TnCoeffProofs TnCoeffEval TnProps.
Import ListNotations.
Local Open Scope R_scope.

(** ** More fuel does not change a result *)
Lemma kloop_mono : forall f f' p d jm im o km ok bz sum r, (f <= f')%nat ->
  kloop f p d jm im o km ok bz sum = Some r -> kloop f' p d jm im o km ok bz sum = Some r.
Proof.
  induction f; intros [|f'] p d jm im o km ok bz sum r L H; try lia; try discriminate H. cbn [kloop] in *.
  destruct (advance im km p ok bz) as [[[km' ok'] bz'] []]; [|exact H]. apply IHf; [lia|exact H].
Qed.
Lemma isum_mono : forall f f' p d jm im o km ok r, (f <= f')%nat ->
  isum f p d jm im o km ok = Some r -> isum f' p d jm im o km ok = Some r.
Proof.
  unfold isum. intros f f' p d jm im o km ok r L H. destruct (existsb _ _); [exact H|].
  now apply (kloop_mono f).
Qed.
Lemma imloop_mono : forall f f' p d jm im o km ok items r, (f <= f')%nat ->
  imloop f p d jm im o km ok items = Some r -> imloop f' p d jm im o km ok items = Some r.
Proof.
  induction f; intros [|f'] p d jm im o km ok items r L H; try lia; try discriminate H. cbn [imloop] in *.
  destruct (isum (S f) p d jm im o km ok) as [[[km' ok'] sum]|] eqn:E; [|discriminate H].
  rewrite (isum_mono (S f) (S f') p d jm im o km ok _ L E).
  destruct ((im (p - 1)%nat =? o) || (p =? 1)); [exact H|]. apply IHf; [lia|exact H].
Qed.
Lemma orders_mono : forall l f f' p d jm im km ok items r, (f <= f')%nat ->
  orders f p d jm im km ok items l = Some r -> orders f' p d jm im km ok items l = Some r.
Proof.
  induction l as [|o l IH]; intros f f' p d jm im km ok items r L H; [exact H|]. cbn [orders] in *.
  destruct (imloop f p d jm _ o km ok items) as [[[[im' km'] ok'] it']|] eqn:E; [|discriminate H].
  rewrite (imloop_mono _ _ _ _ _ _ _ _ _ _ _ L E). now apply (IH f).
Qed.
Lemma jmloop_mono : forall f f' p d jm im km ok ls r, (f <= f')%nat ->
  jmloop f p d jm im km ok ls = Some r -> jmloop f' p d jm im km ok ls = Some r.
Proof.
  induction f; intros [|f'] p d jm im km ok ls r L H; try lia; try discriminate H. cbn [jmloop] in *.
  destruct (orders (S f) p d jm im km ok [] (seq 1 d)) as [[[[im' km'] ok'] it']|] eqn:E; [|discriminate H].
  rewrite (orders_mono _ _ _ _ _ _ _ _ _ _ _ L E).
  destruct it'; [discriminate H|].
  destruct ((jm (p - 1)%nat =? d) || (p =? 1)); [exact H|]. apply IHf; [lia|exact H].
Qed.
Lemma coeff_det : forall f p d l, (0 < p)%nat -> (0 < d)%nat -> coeff f p d = Some l ->
  l = map (items_for d) (vectors p d).
Proof.
  intros f p d l P D H. destruct (coeff_ok p d P D) as (N & HN).
  specialize (HN (Nat.max N f) ltac:(lia)). unfold coeff in *.
  rewrite (jmloop_mono f (Nat.max N f) _ _ _ _ _ _ _ _ ltac:(lia) H) in HN. congruence.
Qed.

(** ** Distribution of the coefficients *)
Section Turns.
Variables (m n p d : nat) (S : nat -> nat -> R).
Variable hov : list (list R) -> nat -> nat -> nat -> R.
Variable T : nat -> list R -> nat -> R.
Hypothesis Hov : forall X j k r, (k < length X)%nat -> (j < m)%nat -> (1 <= r <= d)%nat ->
  hov X j k r = T j (nth k X []) r.

Definition contrib (j a : nat) (x : list R) (items : list item) : R :=
  rsum (fun it => if (a =? ia it)%nat then T j x (ib it) * ic it else 0) items.

Definition small (items : list item) := forall it, In it items -> (1 <= ib it <= d)%nat.

Lemma items_effect : forall X k x items t j a, (k < length X)%nat -> nth k X [] = x -> (j < m)%nat -> small items ->
  fold_left (fun t (it : item) => addto t m (ia it) (fun j => hov X j k (ib it) * ic it)) items t j a
  = t j a + contrib j a x items.
Proof.
  intros X k x items. unfold contrib. induction items as [|it items IH]; intros t j a K E J Sm; cbn [fold_left rsum].
  - ring.
  - rewrite IH; try assumption. 2:{ intros i I. apply Sm. now right. }
    unfold addto at 1. rewrite (proj2 (Nat.ltb_lt j m) J). rewrite andb_true_r.
    rewrite Hov by (try assumption; apply Sm; now left). rewrite E.
    destruct (a =? ia it)%nat; ring.
Qed.
Lemma flush_effect : forall pending t j a, (j < m)%nat -> (forall q, In q pending -> small (snd q)) ->
  flush hov m n p S pending t j a
  = t j a + rsum (fun q => contrib j a (multma n p S (fst q)) (snd q)) pending.
Proof.
  intros pending t j a J Sm. unfold flush.
  set (X := map (fun q => multma n p S (fst q)) pending).
  assert (forall l k t, (forall i, (i < length l)%nat -> nth (k + i) X [] = multma n p S (fst (nth i l (fun _ => 0%nat, [])))) ->
    (k + length l = length X)%nat -> (forall q, In q l -> small (snd q)) ->
    fold_left (fun t q => fold_left (fun t (it : item) => addto t m (ia it) (fun j => hov X j (fst q) (ib it) * ic it)) (snd (snd q)) t)
      (combine (seq k (length l)) l) t j a
    = t j a + rsum (fun q => contrib j a (multma n p S (fst q)) (snd q)) l) as G.
  { induction l as [|q l IH]; intros k t0 Nx L Sq; cbn [length seq combine fold_left rsum]; [ring|].
    rewrite IH.
    - cbn [fst snd]. cbn [length] in L.
      rewrite (items_effect X k (multma n p S (fst q))); [ring| | |assumption|].
      + lia.
      + specialize (Nx 0%nat). rewrite Nat.add_0_r in Nx. apply Nx. cbn. lia.
      + apply Sq. now left.
    - intros i I. specialize (Nx (Datatypes.S i)). cbn [nth] in Nx.
      replace (Datatypes.S k + i)%nat with (k + Datatypes.S i)%nat by lia. apply Nx. cbn. lia.
    - cbn [length] in L. lia.
    - intros q' Q. apply Sq. now right. }
  apply G; [|unfold X; now rewrite map_length|assumption].
  intros i I. cbn [Nat.add]. unfold X.
  set (g := fun q : (nat -> nat) * list item => multma n p S (fst q)).
  rewrite (nth_indep _ [] (g (fun _ => 0%nat, []))) by (now rewrite map_length).
  now rewrite (map_nth g).
Qed.

Lemma multma_ext : forall f g, (forall i, (i < p)%nat -> f i = g i) -> multma n p S f = multma n p S g.
Proof.
  intros f g H. unfold multma. apply map_ext. intros i.
  assert (forall l a, (forall u, In u l -> (u < p)%nat) ->
    fold_left (fun sum j => sum + S i j * INR (f j)) l a = fold_left (fun sum j => sum + S i j * INR (g j)) l a) as G.
  { induction l; intros b U; [reflexivity|]. cbn [fold_left]. rewrite (H a) by (apply U; now left).
    apply IHl. intros. apply U. now right. }
  apply G. intros u I. apply in_seq in I. lia.
Qed.

Lemma turns_effect : forall vs it bd pending i dim t j a,
  (j < m)%nat ->
  (forall k v, nth_error vs k = Some v -> forall u, (u < p)%nat ->
     convert d (iter (Datatypes.S k) (turn_it p d) it) u = nth u v 0%nat) ->
  (forall v, In v vs -> small (items_for d v)) -> (forall q, In q pending -> small (snd q)) ->
  (dim = i + length vs)%nat ->
  (bd <= length pending + length vs)%nat -> (vs <> [] -> (length pending < bd)%nat) ->
  (vs = [] -> pending = []) ->
  turns hov m n p d S (map (items_for d) vs) it bd pending i dim t j a
  = t j a + rsum (fun q => contrib j a (multma n p S (fst q)) (snd q)) pending
          + rsum (fun v => contrib j a (multma n p S (array v)) (items_for d v)) vs.
Proof.
  induction vs as [|v vs IH]; intros it bd pending i dim t j a J It Sv Sp Di Bd1 Bd2 Pe; cbn [map turns rsum].
  - rewrite Pe by reflexivity. cbn. ring.
  - assert (multma n p S (convert d (turn_it p d it)) = multma n p S (array v)) as Em.
    { apply multma_ext. intros u U. apply (It 0%nat v eq_refl u U). }
    assert (forall k w, nth_error vs k = Some w -> forall u, (u < p)%nat ->
       convert d (iter (Datatypes.S k) (turn_it p d) (turn_it p d it)) u = nth u w 0%nat) as It'.
    { intros k w Q u U. rewrite <- (It (Datatypes.S k) w Q u U). f_equal.
      assert (forall k, iter k (turn_it p d) (turn_it p d it) = iter (Datatypes.S k) (turn_it p d) it) as Ii.
      { clear. induction k; [reflexivity|]. cbn [iter] in *. now rewrite IHk. }
      apply Ii. }
    assert (forall q, In q (pending ++ [(convert d (turn_it p d it), items_for d v)]) -> small (snd q)) as Sp'.
    { intros q Q. apply in_app_or in Q. destruct Q as [Q|[<-|[]]]; [now apply Sp|]. apply Sv. now left. }
    specialize (Bd2 ltac:(discriminate)). cbn [length] in *.
    destruct (Nat.ltb_spec (length pending) (bd - 1)).
    + rewrite IH; try assumption.
      * rewrite rsum_app. cbn [rsum fst snd]. rewrite Em. ring.
      * intros w I. apply Sv. now right.
      * lia.
      * rewrite app_length. cbn. lia.
      * intros _. rewrite app_length. cbn. lia.
      * intros ->. cbn [length] in *. lia.
    + rewrite IH; try assumption.
      * rewrite flush_effect by assumption. rewrite rsum_app. cbn [rsum fst snd]. rewrite Em. ring.
      * intros w I. apply Sv. now right.
      * intros q [].
      * lia.
      * cbn [length]. destruct (Nat.leb_spec (dim - i) bd); lia.
      * intros Ne. cbn [length]. assert (0 < length vs)%nat by (destruct vs; [congruence|cbn; lia]).
        destruct (Nat.leb_spec (dim - i) bd); lia.
      * reflexivity.
Qed.
End Turns.

(** ** From exponents to positions *)
Definition exps (p : nat) (q : list nat) : list nat := map (fun u => count q (u + 1)) (seq 0 p).
Definition tuple (d : nat) (i : list nat) : list nat := rev (itl 1 i) ++ repeat 0%nat (d - list_sum i).

Lemma nonincreasing_app0 : forall l k, nonincreasing l -> nonincreasing (l ++ repeat 0%nat k).
Proof.
  induction l as [|a l IH]; intros k H.
  - cbn [app]. apply (derivative_zeros 0 k).
  - cbn [app]. destruct l as [|b l].
    + cbn [app]. destruct k; [exact I|]. split; [lia|]. apply (IH (Datatypes.S k)). exact I.
    + destruct H as [A B]. split; [exact A|]. apply IH. exact B.
Qed.
Lemma rev_itl : forall v x, nonincreasing (rev (itl x v)).
Proof.
  assert (X : forall l c, nonincreasing l -> List.Forall (fun y => c <= y)%nat l -> forall k, nonincreasing (l ++ repeat c k)).
  { induction l as [|a l IH]; intros c H F k.
    - cbn [app]. induction k; [exact I|]. cbn [repeat]. destruct k; [exact I|]. split; [lia|exact IHk].
    - inversion F; subst. cbn [app]. destruct l as [|b l].
      + cbn [app]. destruct k; [exact I|]. split; [lia|]. specialize (IH c I ltac:(constructor) (Datatypes.S k)). exact IH.
      + destruct H as [A B]. split; [exact A|]. apply IH; assumption. }
  induction v as [|a v IH]; intros x; [exact I|]. cbn [itl]. rewrite rev_app_distr.
  assert (rev (repeat x a) = repeat x a) as ->.
  { clear. induction a; [reflexivity|]. cbn [repeat rev]. rewrite IHa. symmetry. apply repeat_snoc. }
  apply X; [apply IH|]. apply List.Forall_rev. eapply List.Forall_impl; [|apply itl_bounds]. cbn. intros. lia.
Qed.
Lemma tuple_derivative : forall p d i, length i = p -> (list_sum i <= d)%nat -> derivative p d (tuple d i).
Proof.
  intros p d i L Sm. unfold tuple. split; [|split].
  - rewrite app_length, rev_length, itl_length, repeat_length. lia.
  - apply nonincreasing_app0. apply rev_itl.
  - apply List.Forall_app. split.
    + apply List.Forall_rev. eapply List.Forall_impl; [|apply itl_bounds]. cbn. intros. lia.
    + apply List.Forall_forall. intros x X. apply repeat_spec in X. lia.
Qed.
Lemma count_rev : forall l v, count (rev l) v = count l v.
Proof. induction l; intros; [reflexivity|]. cbn [rev]. rewrite count_app, IHl, !count_cons. change (count [] v) with 0%nat. destruct (a =? v)%nat; lia. Qed.
Lemma count_tuple : forall d i u, count (tuple d i) (u + 1) = nth u i 0%nat.
Proof.
  intros. unfold tuple. rewrite count_app, count_repeat, count_rev. destruct (Nat.eqb_spec 0 (u + 1)); [lia|].
  rewrite (Nat.add_comm u 1), count_itl. lia.
Qed.
Lemma count_tuple_0 : forall d i, count (tuple d i) 0 = (d - list_sum i)%nat.
Proof.
  intros. unfold tuple. rewrite count_app, count_repeat, count_rev. cbn [Nat.eqb].
  assert (count (itl 1 i) 0 = 0%nat) as ->; [|lia].
  pose proof (itl_bounds i 1) as B. induction B; [reflexivity|].
  rewrite count_cons. destruct (Nat.eqb_spec x 0); [lia|assumption].
Qed.
Lemma exps_tuple : forall p d i, length i = p -> exps p (tuple d i) = i.
Proof.
  intros p d i <-. unfold exps. apply (nth_ext _ _ 0%nat 0%nat).
  - now rewrite map_length, seq_length.
  - intros u U. rewrite map_length, seq_length in U.
    rewrite (nth_indep _ 0%nat ((fun u => count (tuple d i) (u + 1)) 0%nat)) by now rewrite map_length, seq_length.
    rewrite (map_nth (fun u => count (tuple d i) (u + 1))), seq_nth by assumption. apply count_tuple.
Qed.
(* a derivative is determined by its exponents *)
Lemma exps_inj : forall p d q q', derivative p d q -> derivative p d q' -> exps p q = exps p q' -> q = q'.
Proof.
  intros p d q q' H H' E. rewrite <- (rev_involutive q), <- (rev_involutive q').
  rewrite (rev_counts d p q H), (rev_counts d p q' H'). f_equal.
  assert (forall u, (u < p)%nat -> count q (u + 1) = count q' (u + 1)) as Eu.
  { intros u U. assert (nth u (exps p q) 0%nat = nth u (exps p q') 0%nat) as X by now rewrite E.
    unfold exps in X.
    rewrite (nth_indep _ 0%nat ((fun u => count q (u + 1)) 0%nat)) in X by now rewrite map_length, seq_length.
    rewrite (nth_indep (map (fun u => count q' _) _) 0%nat ((fun u => count q' (u + 1)) 0%nat)) in X by now rewrite map_length, seq_length.
    rewrite !(map_nth (fun u => count _ (u + 1))), !seq_nth in X by assumption. exact X. }
  assert (forall r, derivative p d r -> d = list_sum (map (count r) (seq 0 (Datatypes.S p)))) as Tot.
  { intros r D. rewrite <- length_flat_repeat. rewrite <- (rev_counts d p r D), rev_length. symmetry. apply D. }
  apply flat_map_ext_in. intros v V. apply in_seq in V. f_equal. destruct v.
  - pose proof (Tot q H) as A. pose proof (Tot q' H') as B. cbn [seq map] in A, B. rewrite list_sum_cons in A, B.
    rewrite (list_sum_ext (count q) (count q') (seq 1 p)) in A; [lia|].
    intros x X. apply in_seq in X. specialize (Eu (x - 1)%nat ltac:(lia)). now replace (x - 1 + 1)%nat with x in Eu by lia.
  - specialize (Eu v ltac:(lia)). now rewrite Nat.add_1_r in Eu.
Qed.
Lemma exps_in : forall p d q, derivative p d q -> length (exps p q) = p /\ list_sum (exps p q) = nonzero_entries q /\ (nonzero_entries q <= d)%nat.
Proof.
  intros p d q D. unfold exps. rewrite map_length, seq_length. split; [reflexivity|].
  assert (d = list_sum (map (count q) (seq 0 (Datatypes.S p)))) as Tot.
  { rewrite <- length_flat_repeat. rewrite <- (rev_counts d p q D), rev_length. symmetry. apply D. }
  cbn [seq map] in Tot. rewrite list_sum_cons in Tot.
  assert (list_sum (map (count q) (seq 1 p)) = list_sum (map (fun u => count q (u + 1)) (seq 0 p))) as Sh.
  { rewrite <- seq_shift, map_map. apply list_sum_ext. intros. now rewrite Nat.add_1_r. }
  unfold nonzero_entries. destruct D as [L _]. rewrite L. split; lia.
Qed.

Lemma address_tuple : forall p d i, length i = p -> (list_sum i <= d)%nat ->
  coeff_address p d (list_sum i) (array i) = tensor_address d (array (tuple d i)).
Proof.
  intros p d i L Sm. pose proof (tuple_derivative p d i L Sm) as D.
  rewrite <- (C22_coeff_address p d (tuple d i) D).
  assert (length (tuple d i) - count_occ Nat.eq_dec (tuple d i) 0 = list_sum i)%nat as ->.
  { fold (count (tuple d i) 0). rewrite count_tuple_0. destruct D as [-> _]. lia. }
  apply coeff_address_ext. intros u U. symmetry. apply count_tuple.
Qed.

Lemma contrib_items : forall T p d v q j x, length v = p -> derivative p d q -> (1 <= list_sum (exps p q))%nat ->
  contrib T j (tensor_address d (array q)) x (items_for d v) = T j x (list_sum (exps p q)) * gamma d (exps p q) v.
Proof.
  intros T p d v q j x L D Pos. unfold contrib, items_for. rewrite rsum_flat_map.
  destruct (exps_in p d q D) as (Le & Se & Bo).
  transitivity (rsum (fun o => rsum (fun i => if list_eq_dec Nat.eq_dec (exps p q) i then T j x (list_sum (exps p q)) * gamma d (exps p q) v else 0) (vectors p o)) (seq 1 d)).
  { apply rsum_ext. intros o O. apply in_seq in O. rewrite L, rsum_flat_map. apply rsum_ext. intros i I.
    apply vectors_in in I. destruct I as [Li Si].
    assert ((tensor_address d (array q) =? coeff_address (length i) d (list_sum i) (array i))%nat
            = if list_eq_dec Nat.eq_dec (exps p q) i then true else false) as Ea.
    { rewrite Li, (address_tuple p d i Li) by lia.
      destruct (list_eq_dec Nat.eq_dec (exps p q) i) as [E|N].
      - apply Nat.eqb_eq. f_equal. f_equal. apply (exps_inj p d); [assumption|apply tuple_derivative; lia|].
        rewrite exps_tuple by assumption. exact E.
      - apply Nat.eqb_neq. intros E. apply N.
        rewrite <- (exps_tuple p d i Li). f_equal.
        apply (proj1 (proj2 (C22_bijection p d))); [assumption|apply tuple_derivative; lia|exact E]. }
    unfold item_of. destruct (Rlt_dec 0 (Rabs (gamma d i v))) as [G|G]; cbn [rsum ia ib ic]; try rewrite Ea.
    - destruct (list_eq_dec Nat.eq_dec (exps p q) i) as [<-|]; ring.
    - destruct (list_eq_dec Nat.eq_dec (exps p q) i) as [<-|]; [|reflexivity].
      assert (gamma d (exps p q) v = 0) as ->; [|ring].
      destruct (Req_dec (gamma d (exps p q) v) 0) as [Z|Z]; [exact Z|]. exfalso. apply G. now apply Rabs_pos_lt. }
  (* only one order and one vector contribute *)
  assert (forall l, NoDup l -> In (list_sum (exps p q)) l ->
    rsum (fun o => rsum (fun i => if list_eq_dec Nat.eq_dec (exps p q) i then T j x (list_sum (exps p q)) * gamma d (exps p q) v else 0) (vectors p o)) l
    = T j x (list_sum (exps p q)) * gamma d (exps p q) v) as G.
  { induction l as [|o l IH]; intros U I; [destruct I|]. apply NoDup_cons_iff in U. destruct U as [U1 U2]. cbn [rsum].
    destruct (Nat.eq_dec o (list_sum (exps p q))) as [->|N].
    - rewrite rsum_single; [|apply vectors_nodup|apply vectors_in; split; [exact Le|reflexivity]].
      rewrite rsum_zero; [ring|]. intros o O. apply rsum_zero. intros i Ii. apply vectors_in in Ii.
      destruct (list_eq_dec Nat.eq_dec (exps p q) i) as [<-|]; [|reflexivity]. destruct Ii as [_ <-]. contradiction.
    - rewrite (rsum_zero _ _ (vectors p o)).
      + rewrite IH; [ring|assumption|]. destruct I; [congruence|assumption].
      + intros i Ii. apply vectors_in in Ii. destruct (list_eq_dec Nat.eq_dec (exps p q) i) as [<-|]; [|reflexivity].
        destruct Ii as [_ Z]. congruence. }
  apply G; [apply seq_NoDup|]. apply in_seq. lia.
Qed.

(** the items have orders between 1 and d *)
Lemma items_small : forall d v, small d (items_for d v).
Proof.
  intros d v it I. unfold items_for in I. apply in_flat_map in I. destruct I as (o & O & I).
  apply in_seq in O. apply in_flat_map in I. destruct I as (i & Ii & I). apply vectors_in in Ii.
  unfold item_of in I. destruct (Rlt_dec _ _); [|destruct I]. destruct I as [<-|[]]. cbn [ib]. lia.
Qed.

(** ** The caches that occur *)
Inductive reachable : cache -> Prop :=
| reach_start : reachable cache0
| reach_call : forall c hov zos fuel m n d p S t0 c' t,
    reachable c -> (1 <= p)%nat ->
    tensor_eval hov zos fuel c m n d p S t0 = Some (c', t) -> reachable c'.

Definition cache_ok (c : cache) : Prop :=
  c = cache0 \/ ((0 < dold c)%nat /\ (0 < pold c)%nat /\
                 coeff_list c = map (items_for (dold c)) (vectors (pold c) (dold c))).
Lemma reachable_ok : forall c, reachable c -> cache_ok c.
Proof.
  induction 1 as [|c hov zos fuel m n d p S t0 c' t R IH P E]; [now left|].
  unfold tensor_eval in E. destruct (Nat.eqb_spec d 0); [injection E as <- _; exact IH|].
  destruct (negb (d =? dold c)%nat || negb (p =? pold c)%nat) eqn:Q.
  - destruct (coeff fuel p d) as [l|] eqn:C0; [|discriminate E]. injection E as <- _. right. cbn.
    split; [lia|]. split; [lia|]. apply (coeff_det fuel); [lia|lia|exact C0].
  - injection E as <- _. exact IH.
Qed.

(** C34: Let F be a function with n independents and m dependents whose partial
    derivatives with respect to z_1..z_p of F_j(x + S z) at z = 0 are [partial j l] (l
    the list of exponents, |l| <= d), and suppose the Taylor coefficients that the
    forward sweep returns along the direction S*jm are those of F: for |jm| = d,
    1 <= r <= d,
       T j (S jm) r = sum over |l| = r of partial j l / l! * jm^l .
    Then tensor_eval, after any number of earlier calls, stores every derivative at the
    position that tensor_address reports, and F itself at position 0. *)
Theorem C34_tensor_eval : forall m n d p S (T : nat -> list R -> nat -> R) (partial : nat -> list nat -> R),
  (1 <= p)%nat -> (1 <= d)%nat ->
  (forall j jm r, (j < m)%nat -> length jm = p -> list_sum jm = d -> (1 <= r <= d)%nat ->
     T j (map (fun i => rsum (fun u => S i u * INR (nth u jm 0%nat)) (seq 0 p)) (seq 0 n)) r
     = rsum (fun l => partial j l / factl l * mono (real jm) l) (vectors p r)) ->
  exists N, forall fuel hov zos c t0, (N <= fuel)%nat -> reachable c ->
    (forall X j k r, (k < length X)%nat -> (j < m)%nat -> (1 <= r <= d)%nat ->
       hov X j k r = T j (nth k X []) r) ->
    exists c' t, tensor_eval hov zos fuel c m n d p S t0 = Some (c', t) /\
      (forall j, (j < m)%nat -> t j 0%nat = zos j) /\
      (forall j q, (j < m)%nat -> derivative p d q -> q <> repeat 0%nat d ->
         t j (tensor_address d (array q)) = partial j (exps p q)).
Proof.
  intros m n d p S T partial P D HT.
  destruct (coeff_ok p d ltac:(lia) ltac:(lia)) as (N & HN).
  exists N. intros fuel hov zos c t0 Fu Rc Hov. unfold tensor_eval.
  destruct (Nat.eqb_spec d 0); [lia|].
  set (oc := if negb (d =? dold c)%nat || negb (p =? pold c)%nat then _ else _).
  assert (exists c', oc = Some c' /\ coeff_list c' = map (items_for d) (vectors p d)) as (c' & Eoc & Ecl).
  { unfold oc. destruct (negb (d =? dold c)%nat || negb (p =? pold c)%nat) eqn:Q.
    - rewrite (HN fuel Fu). eexists. split; [reflexivity|reflexivity].
    - apply orb_false_elim in Q. destruct Q as [Q1 Q2].
      apply negb_false_iff, Nat.eqb_eq in Q1. apply negb_false_iff, Nat.eqb_eq in Q2.
      exists c. split; [reflexivity|]. destruct (reachable_ok c Rc) as [->|(_ & _ & E)].
      + cbn in Q1. lia.
      + rewrite E. now rewrite <- Q1, <- Q2. }
  rewrite Eoc. eexists. eexists. split; [reflexivity|]. split.
  - intros j J. rewrite (proj2 (Nat.ltb_lt j m) J). reflexivity.
  - intros j q J Dq Nz. rewrite (proj2 (Nat.ltb_lt j m) J).
    destruct (exps_in p d q Dq) as (Le & Se & Bo).
    assert (1 <= list_sum (exps p q))%nat as Pos.
    { destruct (list_sum (exps p q)) eqn:Z; [|lia]. exfalso. apply Nz.
      apply (exps_inj p d); [assumption|apply derivative_zeros|].
      assert (forall l, list_sum l = 0%nat -> l = repeat 0%nat (length l)) as Zl.
      { clear. induction l; intros H; [reflexivity|]. rewrite list_sum_cons in H. cbn. f_equal; [lia|]. apply IHl. lia. }
      rewrite (Zl _ Z), Le.
      pose proof (tuple_derivative p d (repeat 0%nat p) (repeat_length _ _)) as Td.
      rewrite <- (exps_tuple p d (repeat 0%nat p)) by apply repeat_length.
      unfold tuple. rewrite itl_zeros, list_sum_zeros, Nat.sub_0_r. reflexivity. }
    assert ((tensor_address d (array q) =? 0)%nat = false) as Az.
    { apply Nat.eqb_neq. intros Z. apply Nz. apply (proj1 (proj2 (C22_bijection p d)));
        [assumption|apply derivative_zeros|]. rewrite Z. symmetry. apply C22_value. }
    rewrite Az. cbn [andb]. rewrite Ecl.
    assert (binomi (p + d - 1) d = length (vectors p d)) as Edim.
    { destruct p; [lia|]. rewrite vectors_length, binomi_C. f_equal. lia. }
    assert (0 < length (vectors p d))%nat as Ld.
    { destruct p; [lia|]. pose proof (vectors_hd p d) as H. destruct (vectors (Datatypes.S p) d); [discriminate H|cbn; lia]. }
    rewrite (turns_effect m n p d S hov T Hov); try assumption.
    + cbn [rsum]. rewrite (proj2 (Nat.ltb_lt j m) J).
      pose proof (proj1 (C22_bijection p d) q Dq) as Ba. rewrite (proj2 (Nat.ltb_lt _ _) Ba). cbn [andb].
      rewrite !Rplus_0_l.
      transitivity (rsum (fun v => gamma d (exps p q) v *
        rsum (fun l => partial j l / factl l * mono (real v) l) (vectors p (list_sum (exps p q)))) (vectors p d)).
      { apply rsum_ext. intros v V. apply vectors_in in V. destruct V as [Lv Sv].
        rewrite (contrib_items T p) by assumption. rewrite <- (HT j v); try assumption; try lia.
        rewrite Rmult_comm. f_equal. f_equal. unfold multma. apply map_ext. intros i.
        assert (forall l a, fold_left (fun sum u => sum + S i u * INR (array v u)) l a = a + rsum (fun u => S i u * INR (nth u v 0%nat)) l) as Fs.
        { clear. induction l; intros b; cbn [fold_left rsum]; [ring|]. rewrite IHl. unfold array. ring. }
        rewrite Fs. ring. }
      rewrite (rsum_ext _ _ (fun v => rsum (fun l => gamma d (exps p q) v * (partial j l / factl l * mono (real v) l)) (vectors p (list_sum (exps p q)))))
        by (intros; now rewrite rsum_scal).
      rewrite rsum_swap.
      transitivity (rsum (fun l => if list_eq_dec Nat.eq_dec (exps p q) l then partial j (exps p q) else 0) (vectors p (list_sum (exps p q)))).
      * apply rsum_ext. intros l I. apply vectors_in in I. destruct I as [Ll Sl].
        rewrite (rsum_ext _ _ (fun v => partial j l / factl l * (gamma d (exps p q) v * mono (real v) l)))
          by (intros; ring).
        rewrite rsum_scal. replace (vectors p d) with (vectors (length (exps p q)) d) by now rewrite Le.
        rewrite gamma_monomial; [|congruence|assumption|lia].
        destruct (list_eq_dec Nat.eq_dec l (exps p q)) as [E1|N1], (list_eq_dec Nat.eq_dec (exps p q) l) as [E2|N2]; try congruence.
        -- rewrite E1. field. apply factl_pos.
        -- ring.
      * apply rsum_single; [apply vectors_nodup|]. apply vectors_in. split; [exact Le|reflexivity].
    + (* the directions *)
      intros k v Q u U. unfold turn_it. destruct (Nat.eqb_spec d 1) as [->|].
      * rewrite <- (eval_exponents_1 p k v Q u U). unfold convert. cbn [seq fold_left].
        assert (iter (Datatypes.S k) (fun it : nat -> nat => put it 0 (it 0%nat + 1)%nat) (fun _ => 0%nat) 0%nat = (k + 1)%nat) as ->; [|reflexivity].
        clear. induction k; [reflexivity|]. cbn [iter] in *. unfold put in *. cbn [Nat.eqb] in *. rewrite IHk. lia.
      * apply (eval_exponents p d k v); try assumption; lia.
    + intros v V. apply items_small.
    + intros x [].
    + cbn [Nat.add length]. destruct (Nat.ltb_spec (binomi (p + d - 1) d) 10); lia.
    + intros _. cbn [length]. destruct (Nat.ltb_spec (binomi (p + d - 1) d) 10); lia.
    + reflexivity.
Qed.

(** Non-vacuity: F(x_0, x_1) = x_0 * x_1 at the origin with S the identity and d = 2;
    its Taylor coefficients along v are 0 and v_0 * v_1.  The hypotheses hold, and the
    theorem gives the value 1 for the mixed derivative, 0 for the pure second derivative. *)
Definition ex_S (i u : nat) : R := if (i =? u)%nat then 1 else 0.
Definition ex_T (j : nat) (x : list R) (r : nat) : R := if (r =? 2)%nat then nth 0 x 0 * nth 1 x 0 else 0.
Definition ex_partial (j : nat) (l : list nat) : R := if list_eq_dec Nat.eq_dec l [1; 1]%nat then 1 else 0.
Lemma ex_taylor : forall j jm r, (j < 1)%nat -> length jm = 2%nat -> list_sum jm = 2%nat -> (1 <= r <= 2)%nat ->
  ex_T j (map (fun i => rsum (fun u => ex_S i u * INR (nth u jm 0%nat)) (seq 0 2)) (seq 0 2)) r
  = rsum (fun l => ex_partial j l / factl l * mono (real jm) l) (vectors 2 r).
Proof.
  intros j jm r J L Sm Hr.
  destruct jm as [|a [|b [|? ?]]]; try discriminate L.
  assert (r = 1 \/ r = 2)%nat as [-> | ->] by lia.
  - cbn. unfold ex_T, ex_partial. cbn. field.
  - cbn. unfold ex_T, ex_partial, ex_S. cbn. field.
Qed.
Example C34_nontrivial : exists fuel hov zos c' t,
  tensor_eval hov zos fuel cache0 1 2 2 2 ex_S (fun _ _ => 0) = Some (c', t) /\
  t 0%nat (tensor_address 2 (array [2; 1]%nat)) = 1 /\ t 0%nat (tensor_address 2 (array [2; 2]%nat)) = 0 /\
  t 0%nat 0%nat = 7.
Proof.
  destruct (C34_tensor_eval 1 2 2 2 ex_S ex_T ex_partial ltac:(lia) ltac:(lia) ex_taylor) as (N & H).
  exists N, (fun X j k r => ex_T j (nth k X []) r), (fun _ => 7).
  destruct (H N (fun X j k r => ex_T j (nth k X []) r) (fun _ => 7) cache0 (fun _ _ => 0) (le_n N) reach_start
    ltac:(reflexivity)) as (c' & t & E & Z & P).
  exists c', t. split; [exact E|].
  assert (forall a b, (1 <= b <= a)%nat -> (a <= 2)%nat -> derivative 2 2 [a; b]) as Dv.
  { intros a b Ab A2. split; [reflexivity|]. split; [cbn; lia|]. constructor; [lia|constructor; [lia|constructor]]. }
  split; [|split].
  - rewrite P; [|lia|apply Dv; lia|discriminate]. reflexivity.
  - rewrite P; [|lia|apply Dv; lia|discriminate]. reflexivity.
  - apply Z. lia.
Qed.
