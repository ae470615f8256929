(* C53: what the loops of the Lie derivative drivers compute, over the real numbers. *)
From Coq Require Import List ZArith Bool Arith Lia Reals Lra.
From Coquelicot Require Import Coquelicot.
Require Import Verif.AdModel Verif.AdReal Verif.HosModel Verif.HosTay Verif.OdeModel Verif.OdeSpec Verif.OdeAcc Verif.OdeFund
  Verif.OdeFor Verif.LieModel Verif.LieCore.
Import ListNotations.
Set Implicit Arguments.
Unset Asymmetric Patterns.
Local Open Scope R_scope.
Notation rcube := (nat -> nat -> nat -> R).
Notation rrows := (HosModel.rows reals).

Lemma put3_at (D : rcube) j i k v : @put3 reals D j i k v j i k = v.
Proof. unfold put3. now rewrite !Nat.eqb_refl. Qed.
Lemma put3_off (D : rcube) j i k v j' i' k' : ~ (j' = j /\ i' = i /\ k' = k) -> @put3 reals D j i k v j' i' k' = D j' i' k'.
Proof.
  intros H. unfold put3. destruct (Nat.eqb_spec j' j); [|reflexivity]. destruct (Nat.eqb_spec i' i); [|reflexivity].
  destruct (Nat.eqb_spec k' k); [|reflexivity]. tauto.
Qed.
Lemma total_rev n f : total_of n f = total_of n (fun i => f (n - 1 - i)%nat).
Proof. etransitivity; [apply total_total|]. rewrite rsum_rev. symmetry. apply total_total. Qed.

(* a pass over layer k *)
Definition only_layer (k : nat) (v : nat -> nat -> rcube -> R) : Prop :=
  forall j i D D', (forall j i k', k' <> k -> D' j i k' = D j i k') -> D' j i k = D j i k -> v j i D' = v j i D.

Lemma layer_row n k j (v : nat -> nat -> rcube -> R) (D : rcube) : only_layer k v -> forall j' i k',
  up n (fun i D => @put3 reals D j i k (v j i D)) D j' i k' =
  if ((j' =? j) && (i <? n) && (k' =? k))%nat then v j i D else D j' i k'.
Proof.
  intros Hv. apply (@up_inv rcube (fun n D' => forall j' i k', D' j' i k' = if ((j' =? j) && (i <? n) && (k' =? k))%nat then v j i D else D j' i k')).
  - intros. now rewrite andb_false_r.
  - intros i D1 Hi A j' i' k'.
    assert (V1 : v j i D1 = v j i D).
    { apply Hv.
      - intros j0 i0 k0 N. rewrite A. destruct (Nat.eqb_spec k0 k); [lia|]. now rewrite andb_false_r.
      - rewrite A. destruct (Nat.ltb_spec i i); [lia|]. now rewrite andb_false_r. }
    rewrite V1.
    destruct (Nat.eqb_spec j' j) as [->|]; cbn [andb]; [|rewrite put3_off by tauto; rewrite A; destruct (Nat.eqb_spec j' j); [tauto|]; reflexivity].
    destruct (Nat.eqb_spec k' k) as [->|]; cbn [andb]; rewrite ?andb_true_r, ?andb_false_r.
    + destruct (Nat.eq_dec i' i) as [->|Ni].
      * rewrite put3_at. destruct (Nat.ltb_spec i (S i)); [reflexivity|lia].
      * rewrite put3_off by tauto. rewrite A, !Nat.eqb_refl. cbn [andb]. rewrite andb_true_r. destruct (Nat.ltb_spec i' i), (Nat.ltb_spec i' (S i)); try lia; reflexivity.
    + rewrite put3_off by tauto. rewrite A. destruct (Nat.eqb_spec k' k); [tauto|]. now rewrite andb_false_r.
Qed.
Lemma layer_loop p n k (v : nat -> nat -> rcube -> R) (D : rcube) : only_layer k v -> forall j i k',
  up p (fun j D => up n (fun i D => @put3 reals D j i k (v j i D)) D) D j i k' =
  if ((j <? p) && (i <? n) && (k' =? k))%nat then v j i D else D j i k'.
Proof.
  intros Hv. apply (@up_inv rcube (fun p D' => forall j i k', D' j i k' = if ((j <? p) && (i <? n) && (k' =? k))%nat then v j i D else D j i k')).
  - reflexivity.
  - intros j D1 Hj A j' i k'. rewrite layer_row by exact Hv.
    assert (V1 : v j i D1 = v j i D).
    { apply Hv.
      - intros j0 i0 k0 N. rewrite A. destruct (Nat.eqb_spec k0 k); [lia|]. now rewrite andb_false_r.
      - rewrite A. destruct (Nat.ltb_spec j j); [lia|]. reflexivity. }
    rewrite V1, A. destruct (Nat.eqb_spec j' j) as [->|N]; cbn [andb].
    + destruct (Nat.ltb_spec j j); [lia|]. destruct (Nat.ltb_spec j (S j)); [|lia]. reflexivity.
    + destruct (Nat.ltb_spec j' j), (Nat.ltb_spec j' (S j)); try lia; reflexivity.
Qed.
(* layer k, set and then increased k times.  x l: independent of layer k *)
Lemma layer_sum p n k (c : nat -> nat -> rcube -> R) (x : nat -> nat -> nat -> rcube -> R) (f : R -> R -> R) (D : rcube) :
  (forall j i D D', (forall j i k', k' <> k -> D' j i k' = D j i k') -> c j i D' = c j i D) ->
  (forall l j i D D', (l < k)%nat -> (forall j i k', k' <> k -> D' j i k' = D j i k') -> x l j i D' = x l j i D) ->
  forall j i k',
  up k (fun l D => up p (fun jp D => up n (fun ip D => @put3 reals D jp ip k (f (D jp ip k) (x l jp ip D))) D) D)
    (up p (fun j D => up n (fun i D => @put3 reals D j i k (c j i D)) D) D) j i k' =
  if ((j <? p) && (i <? n) && (k' =? k))%nat then up k (fun l v => f v (x l j i D)) (c j i D) else D j i k'.
Proof.
  intros Hc Hx.
  apply (@up_inv rcube (fun m D' => (m <= k)%nat -> forall j i k', D' j i k' = if ((j <? p) && (i <? n) && (k' =? k))%nat then up m (fun l v => f v (x l j i D)) (c j i D) else D j i k')); [| |lia].
  - intros _ j i k'. rewrite layer_loop; [reflexivity|]. intros j0 i0 D1 D2 H _. now apply Hc.
  - intros l D1 Hl A Hm j i k'. specialize (A ltac:(lia)).
    rewrite (@layer_loop p n k (fun jp ip D => f (D jp ip k) (x l jp ip D))).
    + rewrite A, Nat.eqb_refl, andb_true_r. cbv beta.
      destruct ((j <? p) && (i <? n))%nat eqn:E; cbn [andb].
      * destruct (Nat.eqb_spec k' k) as [->|]; cbn [up]; [|rewrite A, E; cbn [andb]; destruct (Nat.eqb_spec k' k); [tauto|reflexivity]].
        f_equal. apply Hx; [lia|]. intros j0 i0 k0 N. rewrite A. destruct (Nat.eqb_spec k0 k); [lia|]. now rewrite andb_false_r.
      * rewrite A, E. reflexivity.
    + intros j0 i0 D2 D3 H1 H2. rewrite H2. f_equal. now apply Hx.
Qed.

Definition lie_sum (n k : nat) (C : nat -> nat -> R) (B : rcube) (i : nat) : R :=
  C i k + total_of k (fun l => total_of n (fun p => C p (k - 1 - l)%nat * B p i l)).
Lemma dot_up n (a b : nat -> R) : up n (fun kp x => x + a kp * b kp) 0 = total_of n (fun p => a p * b p).
Proof. rewrite (@up_add_total n (fun p => a p * b p)). ring. Qed.
Lemma up_ext (A : Type) n (f g : nat -> A -> A) s : (forall i s, (i < n)%nat -> f i s = g i s) -> up n f s = up n g s.
Proof. induction n as [|n IH]; intros H; cbn [up]; [reflexivity|]. rewrite IH by (intros; apply H; lia). apply H. lia. Qed.

Lemma accodeout_ok p n deg (B C D : rcube) j i k : (j < p)%nat -> (i < n)%nat -> (k <= deg)%nat ->
  @accodeout reals p n deg B C D j i k = lie_sum n k (C j) B i.
Proof.
  intros Hj Hi. unfold accodeout.
  assert (Q : forall k, (k < S deg)%nat -> up (S deg) (fun k D =>
    let D := up p (fun j D => up n (fun i D => @put3 reals D j i k (C j i k)) D) D in
    up k (fun l D => up p (fun jp D => up n (fun ip D =>
      let x := up n (fun kp x => add reals x (mul reals (C jp kp (k - S l)%nat) (B kp ip l))) (zero reals) in
      @put3 reals D jp ip k (add reals (D jp ip k) x)) D) D) D) D j i k = lie_sum n k (C j) B i).
  { apply (@up_inv rcube (fun m D' => forall k, (k < m)%nat -> D' j i k = lie_sum n k (C j) B i)); [intros; lia|].
    intros k0 D1 Hk0 A k1 Hk1. cbv zeta.
    pose proof (@layer_sum p n k0 (fun j i _ => C j i k0)
      (fun l jp ip _ => up n (fun kp x => add reals x (mul reals (C jp kp (k0 - S l)%nat) (B kp ip l))) (zero reals)) Rplus D1) as L.
    cbv beta in L. change (add reals) with Rplus in *. rewrite L by reflexivity.
    destruct (Nat.ltb_spec j p); [|lia]. destruct (Nat.ltb_spec i n); [|lia]. cbn [andb].
    destruct (Nat.eqb_spec k1 k0) as [->|N]; [|apply A; lia].
    unfold lie_sum. rewrite (@up_add_total k0 (fun l => up n (fun kp x => x + mul reals (C j kp (k0 - S l)%nat) (B kp i l)) (zero reals))).
    f_equal. apply total_ext. intros l Hl. cbn [mul zero reals]. rewrite dot_up. apply total_ext. intros q _. now replace (k0 - S l)%nat with (k0 - 1 - l)%nat by lia. }
  intros Hk. apply Q. lia.
Qed.

Lemma accadj_ok n deg (A Bs : rcube) : total_jacobians n 1 deg (fun i j k => - A j i k) (@accadj reals n deg A Bs).
Proof.
  intros k j i Hk Hj Hi. revert k Hk. unfold accadj.
  match goal with |- forall k, _ -> ?X _ _ k = _ => set (R0 := X) end.
  assert (Q : forall k, (k < S deg)%nat -> forall j i, (j < n)%nat -> (i < n)%nat ->
    R0 j i k = 1 / INR (S k) * (- A i j k + total_of n (fun p => total_of k (fun q => - A p j q * R0 p i (k - 1 - q)%nat)))).
  { unfold R0.
    match goal with |- forall k, _ -> forall j i, _ -> _ -> ?X _ _ _ = _ =>
      apply (@up_inv rcube (fun m D' => forall k, (k < m)%nat -> forall j i, (j < n)%nat -> (i < n)%nat ->
        D' j i k = 1 / INR (S k) * (- A i j k + total_of n (fun p => total_of k (fun q => - A p j q * D' p i (k - 1 - q)%nat))))) end; [intros; lia|].
    intros k0 D1 Hk0 IH k1 Hk1 j1 i1 Hj1 Hi1. cbv zeta.
    pose proof (@layer_sum n n k0 (fun j i _ => dvd reals (neg reals (A i j k0)) (ofnat reals (S k0)))
      (fun l jp ip D => up n (fun kp x => add reals x (mul reals (A kp jp (k0 - S l)%nat) (D kp ip l))) (zero reals))
      (fun v x => sub reals v (dvd reals x (ofnat reals (S k0)))) D1) as L. cbv beta in L.
    match type of L with ?A1 -> ?A2 -> _ => assert (H1 : A1) by reflexivity; assert (H2 : A2) end.
    { intros l j' i' D2 D3 Hl H. apply up_ext. intros q s0 _. rewrite H by lia. reflexivity. }
    specialize (L H1 H2). clear H1 H2.
    match goal with |- ?X _ _ _ = _ => set (D2 := X) in * end.
    assert (Low : forall j' i' k', k' <> k0 -> D2 j' i' k' = D1 j' i' k').
    { intros j' i' k' N. unfold D2. rewrite L. destruct (Nat.eqb_spec k' k0); [lia|]. now rewrite andb_false_r. }
    destruct (Nat.eq_dec k1 k0) as [->|N].
    - unfold D2 at 1. rewrite L. destruct (Nat.ltb_spec j1 n); [|lia]. destruct (Nat.ltb_spec i1 n); [|lia]. rewrite Nat.eqb_refl. cbn [andb].
      cbn [sub dvd neg ofnat add mul zero reals]. change (match k0 with 0%nat => 1 | S _ => INR k0 + 1 end) with (INR (S k0)).
      assert (E : forall m v, up m (fun l v => v - up n (fun kp x => x + A kp j1 (k0 - S l)%nat * D1 kp i1 l) 0 / INR (S k0)) v =
        v - total_of m (fun l => total_of n (fun p => A p j1 (k0 - S l)%nat * D1 p i1 l)) / INR (S k0)).
      { induction m as [|m IHm]; intros v; cbn [up total_of]; [unfold Rdiv; ring|]. rewrite IHm, dot_up. unfold Rdiv. ring. }
      rewrite E.
      rewrite (@total_ext n (fun p => total_of k0 (fun q => - A p j1 q * D2 p i1 (k0 - 1 - q)%nat))
         (fun p => total_of k0 (fun l => - (A p j1 (k0 - S l)%nat * D1 p i1 l)))).
      2:{ intros p Hp. rewrite total_rev. apply total_ext. intros l Hl. rewrite Low by lia.
          replace (k0 - 1 - (k0 - 1 - l))%nat with l by lia. replace (k0 - 1 - l)%nat with (k0 - S l)%nat by lia. ring. }
      rewrite (total_swap n k0 (fun p l => - (A p j1 (k0 - S l)%nat * D1 p i1 l))).
      rewrite (@total_ext k0 (fun q => total_of n (fun p => - (A p j1 (k0 - S q)%nat * D1 p i1 q))) (fun q => -1 * total_of n (fun p => A p j1 (k0 - S q)%nat * D1 p i1 q))).
      2:{ intros q Hq. rewrite <- total_scal. apply total_ext. intros; ring. }
      rewrite total_scal. field. apply not_0_INR. lia.
    - rewrite Low by exact N. rewrite IH by (auto; lia). do 2 f_equal. apply total_ext. intros p Hp. apply total_ext. intros q Hq. now rewrite Low by lia. }
  intros k Hk. apply Q; auto. lia.
Qed.

(* ------------------------------------------------------------------ *)
(* the factorials *)
Fixpoint zfact (k : nat) : Z := match k with 0%nat => 1%Z | S m => (zfact m * Z.of_nat k)%Z end.
Lemma zfact_fact k : zfact k = Z.of_nat (fact k).
Proof. induction k as [|k IH]; [reflexivity|]. cbn [zfact]. rewrite IH. change (fact (S k)) with (S k * fact k)%nat. rewrite Nat2Z.inj_mul. ring. Qed.
Lemma zfact_small k : (k <= 12)%nat -> (zfact k <= int_max)%Z.
Proof. intros H. do 13 (destruct k as [|k]; [vm_compute; discriminate|]). lia. Qed.
Lemma next_fak_ok k : (k <= 12)%nat -> next_fak k (zfact (k - 1)) = Some (zfact k).
Proof.
  intros H. unfold next_fak. destruct k as [|k]; [reflexivity|]. replace (S k - 1)%nat with k by lia.
  change (zfact k * Z.of_nat (S k))%Z with (zfact (S k)). pose proof (zfact_small H). destruct (Z.leb_spec (zfact (S k)) int_max); [reflexivity|lia].
Qed.
Lemma of_int_fact k : @of_int reals (zfact k) = INR (fact k).
Proof. unfold of_int. cbn [ofnat reals]. now rewrite zfact_fact, Nat2Z.id. Qed.
Lemma int_limit : next_fak 13 (zfact 12) = None.
Proof. vm_compute. reflexivity. Qed.

(* a loop that carries int Fak *)
Definition fak_loop (T : Type) (d : nat) (step : nat -> Z -> T -> T) (s0 : T) : option T :=
  option_map snd (up (S d) (fun k (s : option (Z * T)) =>
    match s with None => None | Some (Fak, r) => match next_fak k Fak with None => None | Some Fak => Some (Fak, step k Fak r) end end) (Some (1%Z, s0))).
Lemma fak_up (T : Type) (step : nat -> Z -> T -> T) (s0 : T) : forall m, (m <= 13)%nat ->
  up m (fun k (s : option (Z * T)) =>
    match s with None => None | Some (Fak, r) => match next_fak k Fak with None => None | Some Fak => Some (Fak, step k Fak r) end end) (Some (1%Z, s0)) =
  Some (zfact (m - 1), up m (fun k r => step k (zfact k) r) s0).
Proof.
  induction m as [|m IH]; intros Hm; [reflexivity|]. cbn [up]. rewrite IH by lia. rewrite next_fak_ok by lia. now replace (S m - 1)%nat with m by lia.
Qed.
Lemma fak_loop_ok (T : Type) d (step : nat -> Z -> T -> T) (s0 : T) : (d <= 12)%nat ->
  fak_loop d step s0 = Some (up (S d) (fun k r => step k (zfact k) r) s0).
Proof. intros H. unfold fak_loop. rewrite fak_up by lia. reflexivity. Qed.
Lemma fak_loop_overflow (T : Type) d (step : nat -> Z -> T -> T) (s0 : T) : (12 < d)%nat -> fak_loop d step s0 = None.
Proof.
  intros H. unfold fak_loop.
  assert (Q : forall m, (13 < m)%nat -> up m (fun k (s : option (Z * T)) =>
    match s with None => None | Some (Fak, r) => match next_fak k Fak with None => None | Some Fak => Some (Fak, step k Fak r) end end) (Some (1%Z, s0)) = None).
  { induction m as [|m IH]; intros Hm; [lia|]. cbn [up]. destruct (Nat.eq_dec m 13) as [->|N].
    - rewrite fak_up by lia. replace (13 - 1)%nat with 12%nat by lia. rewrite int_limit. reflexivity.
    - rewrite IH by lia. reflexivity. }
  rewrite Q by lia. reflexivity.
Qed.

(* a pass over column k *)
Lemma col_loop n k (v : nat -> R -> R) (D : rrows) : forall i k',
  up n (fun i (D : rrows) => put D i k (v i (D i k))) D i k' = if ((i <? n) && (k' =? k))%nat then v i (D i k) else D i k'.
Proof.
  apply (@up_inv rrows (fun n D' => forall i k', D' i k' = if ((i <? n) && (k' =? k))%nat then v i (D i k) else D i k')).
  - reflexivity.
  - intros i D1 Hi A i' k'. destruct (Nat.eq_dec i' i) as [->|N]; [destruct (Nat.eq_dec k' k) as [->|Nk]|].
    + rewrite put_at, A. destruct (Nat.ltb_spec i i); [lia|]. destruct (Nat.ltb_spec i (S i)); [|lia]. now rewrite Nat.eqb_refl.
    + rewrite put_off by tauto. rewrite A. destruct (Nat.eqb_spec k' k); [tauto|]. now rewrite !andb_false_r.
    + rewrite put_off by tauto. rewrite A. destruct (Nat.ltb_spec i' i), (Nat.ltb_spec i' (S i)); try lia; reflexivity.
Qed.
Lemma col_sum n k (c : nat -> R) (x : nat -> nat -> R) (D : rrows) : forall i k',
  up k (fun l (D : rrows) => up n (fun i (D : rrows) => put D i k (D i k + x l i)) D) (up n (fun i (D : rrows) => put D i k (c i)) D) i k' =
  if ((i <? n) && (k' =? k))%nat then c i + total_of k (fun l => x l i) else D i k'.
Proof.
  assert (Q : forall m i k', up m (fun l (D : rrows) => up n (fun i (D : rrows) => put D i k (D i k + x l i)) D) (up n (fun i (D : rrows) => put D i k (c i)) D) i k' =
    if ((i <? n) && (k' =? k))%nat then c i + total_of m (fun l => x l i) else D i k').
  { induction m as [|m IH]; intros i k'; cbn [up total_of].
    - rewrite (@col_loop n k (fun i _ => c i)). destruct ((i <? n) && (k' =? k))%nat; [change (V reals) with R; ring|reflexivity].
    - rewrite (@col_loop n k (fun i v => v + x m i)). rewrite !IH. rewrite Nat.eqb_refl, andb_true_r.
      destruct (Nat.ltb_spec i n); cbn [andb]; [|reflexivity]. destruct (Nat.eqb_spec k' k); [change (V reals) with R; ring|reflexivity]. }
  intros i k'. apply Q.
Qed.

Lemma acccov_ok n d (B : rcube) (C D : rrows) : (d <= 12)%nat -> exists r,
  @acccov reals n d B C D = Some r /\
  (forall i k, (i < n)%nat -> (k <= d)%nat -> r i k = INR (fact k) * lie_sum n k C B i) /\
  (forall i k, (n <= i)%nat \/ (d < k)%nat -> r i k = D i k).
Proof.
  intros Hd. eexists. split; [exact (@fak_loop_ok _ d _ D Hd)|].
  assert (Q : forall m, (forall i k, up m (fun k r =>
     up k (fun l (D : rrows) => up n (fun ip (D : rrows) =>
       let x := up n (fun kp x => add reals x (mul reals (C kp (k - S l)%nat) (B kp ip l))) (zero reals) in
       put D ip k (add reals (D ip k) (mul reals (of_int reals (zfact k)) x))) D)
     (up n (fun i (D : rrows) => put D i k (mul reals (of_int reals (zfact k)) (C i k))) r)) D i k =
     if ((i <? n) && (k <? m))%nat then INR (fact k) * lie_sum n k C B i else D i k)).
  { intros m. apply (@up_inv rrows (fun m D' => forall i k, D' i k = if ((i <? n) && (k <? m))%nat then INR (fact k) * lie_sum n k C B i else D i k)).
    - intros. now rewrite andb_false_r.
    - intros k0 D1 Hk0 A i k. cbv zeta. cbn [add mul zero reals].
      pose proof (@col_sum n k0 (fun i => of_int reals (zfact k0) * C i k0)
        (fun l ip => of_int reals (zfact k0) * up n (fun kp x => x + C kp (k0 - S l)%nat * B kp ip l) 0) D1) as L. cbv beta in L.
      rewrite L, A. destruct (Nat.ltb_spec i n); cbn [andb]; [|reflexivity].
      destruct (Nat.eqb_spec k k0) as [->|N]; [|destruct (Nat.ltb_spec k k0), (Nat.ltb_spec k (S k0)); try lia; reflexivity].
      destruct (Nat.ltb_spec k0 (S k0)); [|lia]. rewrite total_scal, of_int_fact, <- Rmult_plus_distr_l. f_equal. unfold lie_sum. f_equal.
      apply total_ext. intros l Hl. rewrite dot_up. apply total_ext. intros q _. now replace (k0 - S l)%nat with (k0 - 1 - l)%nat by lia. }
  split; intros i k H; [intros Hk|]; (etransitivity; [exact (Q (S d) i k)|]).
  - destruct (Nat.ltb_spec i n), (Nat.ltb_spec k (S d)); try lia; reflexivity.
  - destruct (Nat.ltb_spec i n), (Nat.ltb_spec k (S d)); try lia; reflexivity.
Qed.

Lemma accbrac_ok n d (Bs : rcube) (b r0 : rrows) : (d <= 12)%nat -> exists r,
  @accbrac reals n d Bs b r0 = Some r /\
  (forall i k, (i < n)%nat -> (k <= d)%nat -> r i k = INR (fact k) * lie_sum n k b Bs i) /\
  (forall i k, (n <= i)%nat \/ (d < k)%nat -> r i k = r0 i k).
Proof.
  intros Hd. eexists. split; [exact (@fak_loop_ok _ d _ r0 Hd)|].
  assert (Q : forall m, (forall i k, up m (fun k r => up n (fun _ r =>
     up k (fun l (D : rrows) => up n (fun ip (D : rrows) =>
       let x := up n (fun kp x => add reals x (mul reals (Bs kp ip l) (b kp (k - S l)%nat))) (zero reals) in
       put D ip k (add reals (D ip k) (mul reals (of_int reals (zfact k)) x))) D)
     (up n (fun i (D : rrows) => put D i k (mul reals (of_int reals (zfact k)) (b i k))) r)) r) r0 i k =
     if ((i <? n) && (k <? m))%nat then INR (fact k) * lie_sum n k b Bs i else r0 i k)).
  { intros m. apply (@up_inv rrows (fun m D' => forall i k, D' i k = if ((i <? n) && (k <? m))%nat then INR (fact k) * lie_sum n k b Bs i else r0 i k)).
    - intros. now rewrite andb_false_r.
    - intros k0 D1 Hk0 A i k. cbv zeta. cbn [add mul zero reals].
      assert (P1 : forall n', (0 < n')%nat -> up n' (fun _ r =>
         up k0 (fun l (D : rrows) => up n (fun ip (D : rrows) =>
           put D ip k0 (D ip k0 + of_int reals (zfact k0) * up n (fun kp x => x + Bs kp ip l * b kp (k0 - S l)%nat) 0)) D)
         (up n (fun i (D : rrows) => put D i k0 (of_int reals (zfact k0) * b i k0)) r)) D1 i k =
         if ((i <? n) && (k =? k0))%nat then of_int reals (zfact k0) * b i k0 + total_of k0 (fun l => of_int reals (zfact k0) * up n (fun kp x => x + Bs kp i l * b kp (k0 - S l)%nat) 0) else D1 i k).
      { induction n' as [|n' IH]; intros Hn'; [lia|]. cbn [up].
        etransitivity; [apply (@col_sum n k0 (fun i => of_int reals (zfact k0) * b i k0)
          (fun l ip => of_int reals (zfact k0) * up n (fun kp x => x + Bs kp ip l * b kp (k0 - S l)%nat) 0))|].
        destruct ((i <? n) && (k =? k0))%nat eqn:E; [reflexivity|]. destruct n' as [|n']; [reflexivity|]. rewrite IH by lia. reflexivity. }
      destruct (Nat.ltb_spec i n) as [Hi|Hi]; cbn [andb] in *.
      + rewrite P1 by lia. clear P1. destruct (Nat.eqb_spec k k0) as [->|N].
        * destruct (Nat.ltb_spec k0 (S k0)); [|lia]. rewrite total_scal, of_int_fact, <- Rmult_plus_distr_l. f_equal. unfold lie_sum. f_equal.
          apply total_ext. intros l Hl. rewrite dot_up. apply total_ext. intros q _. replace (k0 - S l)%nat with (k0 - 1 - l)%nat by lia. apply Rmult_comm.
        * rewrite A. destruct (Nat.ltb_spec i n); [|lia]. cbn [andb]. destruct (Nat.ltb_spec k k0), (Nat.ltb_spec k (S k0)); try lia; reflexivity.
      + destruct n as [|n0]; [cbn [up]; rewrite A; reflexivity|]. rewrite P1 by lia. rewrite A. destruct (Nat.ltb_spec i (S n0)); [lia|]. reflexivity. }
  split; intros i k H; [intros Hk|]; (etransitivity; [exact (Q (S d) i k)|]).
  - destruct (Nat.ltb_spec i n), (Nat.ltb_spec k (S d)); try lia; reflexivity.
  - destruct (Nat.ltb_spec i n), (Nat.ltb_spec k (S d)); try lia; reflexivity.
Qed.
Lemma acccov_overflow n d (B : rcube) (C D : rrows) : (12 < d)%nat -> @acccov reals n d B C D = None.
Proof. intros H. exact (@fak_loop_overflow _ d _ D H). Qed.
Lemma accbrac_overflow n d (B : rcube) (C D : rrows) : (12 < d)%nat -> @accbrac reals n d B C D = None.
Proof. intros H. exact (@fak_loop_overflow _ d _ D H). Qed.
