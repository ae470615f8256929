(* C28: matrices and tensors from myalloc1/2/3 behave like mathematical arrays;
   myallocI2 represents the identity. *)
From Coq Require Import List ZArith Bool Lia.
Require Import Verif.AllocModel.
Import ListNotations.
Set Implicit Arguments.
Local Open Scope Z_scope.

Section Props.
Variable V : Type.
Variables (dzero done : V).
Notation heap := (heap V).
Notation cell := (cell V).

(* ------------------------------------------------------------------ *)
Lemma insideb_iff b a : insideb b a = true <-> inside b a.
Proof.
  unfold insideb, inside. rewrite !andb_true_iff, !Z.leb_le, Z.eqb_eq. tauto.
Qed.
Lemma valid_in (h : heap) b a : In b (blocks h) -> inside b a -> valid h a = true.
Proof.
  intros H I. unfold valid. apply existsb_exists. exists b. split; auto. now apply insideb_iff.
Qed.
Lemma valid_inv (h : heap) a : valid h a = true -> exists b, In b (blocks h) /\ inside b a.
Proof.
  unfold valid. rewrite existsb_exists. intros (b & H & I). exists b. split; auto.
  now apply insideb_iff.
Qed.
Lemma inside_off b k : 0 <= k -> 8 * k + 8 <= bsize b -> inside b (bbase b + 8 * k).
Proof.
  intros H H1. unfold inside. repeat split; try lia.
  replace (bbase b + 8 * k - bbase b) with (k * 8) by lia. apply Z.mod_mul. lia.
Qed.
Lemma inside_apart b b' a a' : disjoint b b' -> inside b a -> inside b' a' -> a <> a'.
Proof. unfold disjoint, inside. lia. Qed.

(* the heap h' has the blocks of h and the same contents except at P *)
Definition same_but (P : Z -> Prop) (h h' : heap) : Prop :=
  blocks h' = blocks h /\ forall a, ~ P a -> cells h' a = cells h a.
Lemma same_trans P Q (h h1 h2 : heap) : same_but P h h1 -> same_but Q h1 h2 ->
  same_but (fun a => P a \/ Q a) h h2.
Proof.
  intros [B C] [B1 C1]. split; [congruence|]. intros a H. rewrite C1, C; tauto.
Qed.
Lemma same_weaken (P Q : Z -> Prop) (h h' : heap) : (forall a, P a -> Q a) -> same_but P h h' -> same_but Q h h'.
Proof. intros I [B C]. split; auto. Qed.

Lemma store_spec (h : heap) b a c : In b (blocks h) -> inside b a ->
  exists h', store h a c = Some h' /\ cells h' a = c /\ same_but (fun x => x = a) h h'.
Proof.
  intros H I. unfold store. rewrite (valid_in _ H I). eexists. split; [reflexivity|].
  cbn. rewrite Z.eqb_refl. split; auto. split; auto. intros x Hx. cbn.
  destruct (x =? a) eqn:E; auto. apply Z.eqb_eq in E. contradiction.
Qed.
Lemma load_in (h : heap) b a : In b (blocks h) -> inside b a -> load h a = Some (cells h a).
Proof. intros H I. unfold load. now rewrite (valid_in _ H I). Qed.

Lemma fill_spec b p step : forall n i t (h : heap), In b (blocks h) ->
  (forall k, 0 <= k < Z.of_nat n -> inside b (p + 8 * (i + k))) ->
  exists h', fill n i p t step h = Some (h', t + Z.of_nat n * step) /\
    (forall k, 0 <= k < Z.of_nat n -> cells h' (p + 8 * (i + k)) = Ptr V (t + k * step)) /\
    same_but (fun a => exists k, 0 <= k < Z.of_nat n /\ a = p + 8 * (i + k)) h h'.
Proof.
  induction n as [|n IH]; intros i t h Hb Hi.
  - exists h. cbn [fill]. split; [do 2 f_equal; lia|]. split; [intros; lia|]. split; auto.
  - cbn [fill].
    destruct (@store_spec h b (p + 8 * i) (Ptr V t) Hb) as (h1 & S & C & F).
    { replace (p + 8 * i) with (p + 8 * (i + 0)) by lia. apply Hi. lia. }
    rewrite S.
    destruct (IH (i + 1) (t + step) h1) as (h2 & F2 & C2 & S2).
    { destruct F as [B _]. now rewrite B. }
    { intros k Hk. replace (i + 1 + k) with (i + (k + 1)) by lia. apply Hi. lia. }
    exists h2. split; [rewrite F2; do 2 f_equal; lia|]. split.
    + intros k Hk. destruct (Z.eq_dec k 0) as [->|Nk].
      * destruct S2 as [_ S2]. rewrite S2.
        -- replace (p + 8 * (i + 0)) with (p + 8 * i) by lia. rewrite C. f_equal. lia.
        -- intros (k' & Hk' & E). lia.
      * specialize (C2 (k - 1)). replace (i + 1 + (k - 1)) with (i + k) in C2 by lia.
        rewrite C2 by lia. f_equal. lia.
    + eapply same_weaken; [|eapply same_trans; eassumption].
      intros a [->|(k & Hk & ->)].
      * exists 0. split; [lia|]. f_equal. lia.
      * exists (k + 1). split; [lia|]. f_equal. lia.
Qed.

(* ------------------------------------------------------------------ *)
(* Arrays as the user sees them. *)

(* a write is an index and a value *)
Section Hist.
Variable I : Type.
Variable eqI : I -> I -> bool.
Definition latest (l : list (I * V)) (i : I) : V :=
  fold_left (fun v w => if eqI i (fst w) then snd w else v) l dzero.
Variable put : heap -> I -> V -> option heap.
Fixpoint writes (h : heap) (l : list (I * V)) : option heap :=
  match l with
  | [] => Some h
  | (i, v) :: r => match put h i v with Some h' => writes h' r | None => None end
  end.
End Hist.

(* The object at h behaves like an array over the index set ok, initially 0:
   every series of writes to it is defined, afterwards each element is the value
   last written to it, and nothing that was in the heap h0 is changed. *)
Definition array_like (I : Type) (eqI : I -> I -> bool) (ok : I -> Prop)
  (get : heap -> I -> option V) (put : heap -> I -> V -> option heap) (h0 h : heap) : Prop :=
  forall l, (forall w, In w l -> ok (fst w)) ->
  exists h', writes put h l = Some h' /\
    (forall i, ok i -> get h' i = Some (latest eqI l i)) /\
    (forall a, valid h0 a = true -> load h' a = load h0 a).

(* General form: elements at pairwise different addresses of one block, found
   through a table that the elements do not overlap. *)
Lemma array_like_gen (I : Type) eqI (ok : I -> Prop) get put (h0 h : heap) b
  (addr : I -> Z) (tab : heap -> Prop) :
  (forall i j, eqI i j = true <-> i = j) ->
  In b (blocks h) ->
  (forall i, ok i -> inside b (addr i)) ->
  (forall i j, ok i -> ok j -> addr i = addr j -> i = j) ->
  tab h ->
  (forall h1 h2 i, ok i -> blocks h1 = blocks h -> tab h1 -> same_but (fun a => a = addr i) h1 h2 -> tab h2) ->
  (forall h1 i, ok i -> blocks h1 = blocks h -> tab h1 -> get h1 i = match cells h1 (addr i) with Num v => Some v | _ => None end) ->
  (forall h1 i v, ok i -> blocks h1 = blocks h -> tab h1 -> put h1 i v = store h1 (addr i) (Num v)) ->
  (forall i, ok i -> cells h (addr i) = Num dzero) ->
  (forall a, valid h0 a = true -> load h a = load h0 a /\ forall i, ok i -> addr i <> a) ->
  array_like eqI ok get put h0 h.
Proof.
  intros EQ HB HI INJ T0 TS HG HP Z0 FR.
  assert (GEN : forall l h1 (f : I -> V), (forall w, In w l -> ok (fst w)) ->
    blocks h1 = blocks h -> tab h1 -> (forall i, ok i -> cells h1 (addr i) = Num (f i)) ->
    (forall a, valid h0 a = true -> load h1 a = load h0 a) ->
    exists h', writes put h1 l = Some h' /\
      (forall i, ok i -> get h' i = Some (fold_left (fun v w => if eqI i (fst w) then snd w else v) l (f i))) /\
      (forall a, valid h0 a = true -> load h' a = load h0 a)).
  { induction l as [|[j v] l IH]; intros h1 f Hok B T C F.
    - exists h1. split; [reflexivity|]. split; auto. intros i Hi. cbn. rewrite HG, C; auto.
    - assert (Oj : ok j) by (apply (Hok (j, v)); now left).
      cbn [writes]. rewrite HP by auto.
      destruct (@store_spec h1 b (addr j) (Num v)) as (h2 & S & Cj & SB).
      { now rewrite B. } { auto. }
      rewrite S. destruct (IH h2 (fun i => if eqI i j then v else f i)) as (h3 & W3 & G3 & F3).
      + intros w Hw. apply Hok. now right.
      + destruct SB as [B2 _]. congruence.
      + now apply TS with (h1 := h1) (i := j).
      + intros i Hi. destruct (eqI i j) eqn:E.
        * apply EQ in E. now subst i.
        * destruct SB as [_ SB]. rewrite SB; auto. intros A. apply INJ in A; auto.
          apply EQ in A. congruence.
      + intros a Ha. rewrite <- F by auto. unfold load, valid. destruct SB as [B2 SB].
        rewrite B2. destruct (existsb _ _); auto. rewrite SB; auto.
        destruct (FR a Ha) as [_ N]. intros ->. exact (N j Oj eq_refl).
      + exists h3. split; auto. }
  intros l Hl. destruct (GEN l h (fun _ => dzero)) as (h' & W' & G' & F'); auto.
  - intros a Ha. apply FR. exact Ha.
  - exists h'. split; auto.
Qed.

(* the heap after calloc *)
Lemma new_block_frame (h : heap) size r c a : r <> 0 -> grant h size r -> valid h a = true ->
  load (new_block h size r c) a = load h a /\ ~ inside (mkBlock r size) a.
Proof.
  intros NZ G Ha. destruct G as [G|(_ & _ & G)]; [contradiction|].
  destruct (valid_inv _ _ Ha) as (b & Hb & Ib). rewrite Forall_forall in G.
  specialize (G b Hb).
  assert (~ inside (mkBlock r size) a) as N.
  { intros I. exact (inside_apart G I Ib eq_refl). }
  split; auto. unfold load. rewrite Ha. unfold valid, new_block. cbn [blocks existsb cells].
  destruct (insideb (mkBlock r size) a) eqn:E; [apply insideb_iff in E; contradiction|].
  cbn [orb]. unfold valid in Ha. now rewrite Ha.
Qed.
Lemma new_block_in (h : heap) size r c : In (mkBlock r size) (blocks (new_block h size r c)).
Proof. now left. Qed.
Lemma new_block_cells (h : heap) size r c a : inside (mkBlock r size) a ->
  cells (new_block h size r c) a = c.
Proof. intros I. cbn. apply insideb_iff in I. now rewrite I. Qed.

(* ------------------------------------------------------------------ *)
Definition ok1 (m : nat) (i : Z) : Prop := 0 <= i < Z.of_nat m.

Theorem C28_vector (m : nat) (r : Z) (h h' : heap) A :
  (0 < m)%nat -> grant h (8 * Z.of_nat m) r ->
  myalloc1 dzero m r h = Ok (A, h') ->
  array_like Z.eqb (ok1 m) (fun h i => get1 h A i) (fun h i v => put1 h A i v) h h'.
Proof.
  intros Hm G. unfold myalloc1. apply Nat.ltb_lt in Hm as Hm'. rewrite Hm'.
  destruct (r =? 0) eqn:E; [discriminate|]. apply Z.eqb_neq in E. intros [= <- <-].
  set (b := mkBlock r (8 * Z.of_nat m)).
  assert (IN : forall i, ok1 m i -> inside b (r + 8 * i)).
  { intros i [H1 H2]. apply (@inside_off b i); unfold b; cbn [bsize]; lia. }
  apply array_like_gen with (b := b) (addr := fun i => r + 8 * i) (tab := fun _ => True); auto.
  - intros; apply Z.eqb_eq.
  - apply new_block_in.
  - intros; lia.
  - intros h1 i Hi B _. unfold get1. rewrite (@load_in h1 b); auto. rewrite B. now left.
  - intros i Hi. now apply new_block_cells, IN.
  - intros a Ha. destruct (@new_block_frame h _ r (Num dzero) a E G Ha) as [L N].
    split; auto. intros i Hi <-. apply N, IN, Hi.
Qed.

(* ------------------------------------------------------------------ *)
Definition ok2 (m n : nat) (p : Z * Z) : Prop :=
  0 <= fst p < Z.of_nat m /\ 0 <= snd p < Z.of_nat n.
Definition eq2 (p q : Z * Z) : bool := (fst p =? fst q) && (snd p =? snd q).
Lemma eq2_iff p q : eq2 p q = true <-> p = q.
Proof.
  destruct p, q. unfold eq2. cbn. rewrite andb_true_iff, !Z.eqb_eq. split.
  - intros [-> ->]. auto.
  - intros [= -> ->]. auto.
Qed.
Lemma cross a b a' b' n : 0 <= b < n -> 0 <= b' < n -> n * a + b = n * a' + b' -> a = a' /\ b = b'.
Proof.
  intros Hb Hb' E. assert (a = a') by (apply Z.div_mod_unique with (b := n) (r1 := b) (r2 := b'); lia).
  lia.
Qed.

Lemma idx_lt i j m n : 0 <= i < m -> 0 <= j < n -> 0 <= n * i + j < m * n.
Proof.
  intros Hi Hj. assert (n * i <= n * (m - 1)) by (apply Z.mul_le_mono_nonneg_l; lia).
  assert (0 <= n * i) by (apply Z.mul_nonneg_nonneg; lia). lia.
Qed.

(* the byte size of an m x n matrix with its row pointers *)
Definition bytes2 (m n : nat) : Z := Z.of_nat m * Z.of_nat n * 8 + Z.of_nat m * 8.

Theorem C28_matrix (m n : nat) (r : Z) (h h' : heap) A :
  (0 < m)%nat -> (0 < n)%nat -> bytes2 m n < W -> grant h (bytes2 m n) r ->
  myalloc2 dzero m n r h = Ok (A, h') ->
  array_like eq2 (ok2 m n) (fun h p => get2 h A (fst p) (snd p))
             (fun h p v => put2 h A (fst p) (snd p) v) h h'.
Proof.
  intros Hm Hn HW G. unfold myalloc2. apply Nat.ltb_lt in Hm as Hm', Hn as Hn'. rewrite Hm', Hn'.
  cbn [andb]. destruct (r =? 0) eqn:E; [discriminate|]. apply Z.eqb_neq in E.
  assert (SZ : size2 m n = bytes2 m n).
  { unfold size2, wrap. apply Z.mod_small. unfold bytes2 in *. lia. }
  rewrite SZ. unfold bytes2 in *. set (b := mkBlock r (Z.of_nat m * Z.of_nat n * 8 + Z.of_nat m * 8)).
  set (h1 := new_block h (Z.of_nat m * Z.of_nat n * 8 + Z.of_nat m * 8) r (Num dzero)).
  unfold populate_dpp.
  destruct (@fill_spec b r (8 * Z.of_nat n) m 0 (r + 8 * Z.of_nat m) h1) as (h2 & F & C & SB).
  { now left. }
  { intros k Hk. apply (@inside_off b (0 + k)); unfold b; cbn [bsize fst snd]; nia. }
  rewrite F. intros [= <- <-].
  set (addr := fun p : Z * Z => r + 8 * (Z.of_nat m + (Z.of_nat n * fst p + snd p))).
  assert (IN : forall p, ok2 m n p -> inside b (addr p)).
  { intros [i j] [H1 H2]. cbn [fst snd] in *. pose proof (idx_lt H1 H2). apply (@inside_off b); unfold b; cbn [bsize fst snd]; nia. }
  assert (INT : forall i, 0 <= i < Z.of_nat m -> inside b (r + 8 * i)).
  { intros i Hi. apply (@inside_off b i); unfold b; cbn [bsize fst snd]; nia. }
  set (tab := fun h : heap => forall i, 0 <= i < Z.of_nat m ->
                cells h (r + 8 * i) = Ptr V (r + 8 * (Z.of_nat m + Z.of_nat n * i))).
  assert (BB : forall h1 : heap, blocks h1 = blocks h2 -> In b (blocks h1)).
  { intros hh ->. destruct SB as [B _]. rewrite B. now left. }
  assert (OFF : forall p i, ok2 m n p -> 0 <= i < Z.of_nat m -> r + 8 * i <> addr p).
  { intros [i j] k [H1 H2] Hk. unfold addr. cbn [fst snd] in *. pose proof (idx_lt H1 H2). lia. }
  assert (RP : forall h1 p, ok2 m n p -> blocks h1 = blocks h2 -> tab h1 ->
               row_ptr h1 r (fst p) = Some (r + 8 * (Z.of_nat m + Z.of_nat n * fst p))).
  { intros hh p [Hp _] B T. unfold row_ptr. rewrite (@load_in hh b); auto. now rewrite T. }
  apply array_like_gen with (b := b) (addr := addr) (tab := tab); auto.
  - apply eq2_iff.
  - intros [i j] [i' j'] [H1 H2] [H3 H4] A. unfold addr in A. cbn [fst snd] in *.
    destruct (@cross i j i' j' (Z.of_nat n)) as [-> ->]; auto; lia.
  - intros i Hi. specialize (C i Hi). rewrite Z.add_0_l in C. rewrite C. f_equal. lia.
  - intros hh1 hh2 p Hp B T [_ S] i Hi. rewrite S; auto.
  - intros hh p Hp B T. unfold get2. rewrite (RP hh p) by auto. unfold get1.
    replace (r + 8 * (Z.of_nat m + Z.of_nat n * fst p) + 8 * snd p) with (addr p) by (unfold addr; lia).
    rewrite (@load_in hh b); auto.
  - intros hh p v Hp B T. unfold put2. rewrite (RP hh p) by auto. unfold put1. f_equal. unfold addr. lia.
  - intros p Hp. destruct SB as [_ S]. rewrite S.
    + apply new_block_cells. now apply IN.
    + intros (k & Hk & Ek). apply (OFF p k Hp Hk). rewrite Ek. f_equal; lia.
  - intros a Ha. destruct (@new_block_frame h _ r (Num dzero) a E G Ha) as [L N]. split.
    + unfold load. unfold load in L. fold h1 in L. rewrite <- L. destruct SB as [B S].
      unfold valid. rewrite B. destruct (existsb _ _); auto. rewrite S; auto.
      intros (k & Hk & ->). apply N. rewrite Z.add_0_l. now apply INT.
    + intros p Hp <-. apply N. now apply IN.
Qed.

(* ------------------------------------------------------------------ *)
Lemma fill_rows_spec b p q (m : nat) step N : forall n i t (h : heap), In b (blocks h) ->
  0 <= i -> i + Z.of_nat n <= N -> q = p + 8 * N ->
  (forall k, 0 <= k < N -> inside b (p + 8 * k)) ->
  (forall k, 0 <= k < N * Z.of_nat m -> inside b (q + 8 * k)) ->
  (forall k, 0 <= k < N -> cells h (p + 8 * k) = Ptr V (q + 8 * (Z.of_nat m * k))) ->
  exists h', fill_rows n i p m t step h = Some (h', t + Z.of_nat n * (Z.of_nat m * step)) /\
    (forall k j, i <= k < i + Z.of_nat n -> 0 <= j < Z.of_nat m ->
       cells h' (q + 8 * (Z.of_nat m * k + j)) = Ptr V (t + (Z.of_nat m * (k - i) + j) * step)) /\
    same_but (fun a => exists k j, i <= k < i + Z.of_nat n /\ 0 <= j < Z.of_nat m /\
                         a = q + 8 * (Z.of_nat m * k + j)) h h'.
Proof.
  induction n as [|n IH]; intros i t h Hb Hi Hn Hq IT IQ HT.
  - exists h. cbn [fill_rows]. split; [do 2 f_equal; lia|]. split; [intros; lia|]. split; auto.
  - cbn [fill_rows]. unfold row_ptr. rewrite (@load_in h b); auto; [|apply IT; lia].
    rewrite HT by lia.
    destruct (@fill_spec b (q + 8 * (Z.of_nat m * i)) step m 0 t h Hb) as (h1 & F & C & SB).
    { intros k Hk. replace (q + 8 * (Z.of_nat m * i) + 8 * (0 + k)) with (q + 8 * (Z.of_nat m * i + k)) by lia.
      apply IQ. apply idx_lt; lia. }
    rewrite F.
    destruct (IH (i + 1) (t + Z.of_nat m * step) h1) as (h2 & F2 & C2 & SB2); auto; try lia.
    { destruct SB as [B _]. now rewrite B. }
    { intros k Hk. destruct SB as [_ S]. rewrite S; auto. intros (k' & Hk' & Ek).
      pose proof (@idx_lt i k' N (Z.of_nat m)). lia. }
    exists h2. split; [rewrite F2; do 2 f_equal; lia|]. split.
    + intros k j Hk Hj. destruct (Z.eq_dec k i) as [->|Nk].
      * destruct SB2 as [_ S2]. rewrite S2.
        -- specialize (C j Hj).
           replace (q + 8 * (Z.of_nat m * i) + 8 * (0 + j)) with (q + 8 * (Z.of_nat m * i + j)) in C by lia.
           rewrite C. f_equal. f_equal. f_equal. lia.
        -- intros (k' & j' & Hk' & Hj' & E).
           destruct (@cross i j k' j' (Z.of_nat m)); try lia.
      * rewrite C2 by lia. f_equal. lia.
    + eapply same_weaken; [|eapply same_trans; eassumption].
      intros a [(k & Hk & ->)|(k & j & Hk & Hj & ->)].
      * exists i, k. split; [lia|]. split; [lia|]. lia.
      * exists k, j. split; [lia|]. split; [lia|]. lia.
Qed.

Definition ok3 (m n p : nat) (x : Z * Z * Z) : Prop :=
  ok2 m n (fst x) /\ 0 <= snd x < Z.of_nat p.
Definition eq3 (x y : Z * Z * Z) : bool := eq2 (fst x) (fst y) && (snd x =? snd y).
Lemma eq3_iff x y : eq3 x y = true <-> x = y.
Proof.
  destruct x as [x1 x2], y as [y1 y2]. unfold eq3. cbn. rewrite andb_true_iff, eq2_iff, Z.eqb_eq. split.
  - intros [-> ->]. auto.
  - intros [= -> ->]. auto.
Qed.
Definition bytes3 (m n p : nat) : Z :=
  Z.of_nat m * Z.of_nat n * Z.of_nat p * 8 + Z.of_nat m * Z.of_nat n * 8 + Z.of_nat m * 8.

Theorem C28_tensor (m n p : nat) (r : Z) (h h' : heap) A :
  (0 < m)%nat -> (0 < n)%nat -> (0 < p)%nat -> bytes3 m n p < W -> grant h (bytes3 m n p) r ->
  myalloc3 dzero m n p r h = Ok (A, h') ->
  array_like eq3 (ok3 m n p) (fun h x => get3 h A (fst (fst x)) (snd (fst x)) (snd x))
             (fun h x v => put3 h A (fst (fst x)) (snd (fst x)) (snd x) v) h h'.
Proof.
  intros Hm Hn Hp HW G. unfold myalloc3.
  apply Nat.ltb_lt in Hm as Hm', Hn as Hn', Hp as Hp'. rewrite Hm', Hn', Hp'.
  cbn [andb]. destruct (r =? 0) eqn:E; [discriminate|]. apply Z.eqb_neq in E.
  assert (SZ : size3 m n p = bytes3 m n p).
  { unfold size3, wrap. apply Z.mod_small. unfold bytes3 in *. lia. }
  rewrite SZ. clear SZ.
  set (M := Z.of_nat m) in *. set (N := Z.of_nat n) in *. set (P := Z.of_nat p) in *.
  assert (0 < M /\ 0 < N /\ 0 < P) as (M0 & N0 & P0) by lia.
  assert (MN : 0 < M * N) by (apply Z.mul_pos_pos; auto).
  assert (MNP : 0 < M * N * P) by (apply Z.mul_pos_pos; auto).
  set (sz := bytes3 m n p) in *.
  assert (Esz : sz = 8 * (M * N * P + M * N + M)) by (unfold sz, bytes3; fold M N P; lia).
  clearbody sz. set (b := mkBlock r sz).
  set (h1 := new_block h sz r (Num dzero)).
  assert (INB : forall k, 0 <= k < M * N * P + M * N + M -> inside b (r + 8 * k)).
  { intros k Hk. apply (@inside_off b k); unfold b; cbn [bsize]; lia. }
  unfold populate_dppp. fold M N P.
  destruct (@fill_spec b r (8 * N) m 0 (r + 8 * M) h1) as (h2 & F & C & SB).
  { now left. }
  { intros k Hk. fold M in Hk. apply INB. lia. }
  rewrite F. fold M.
  destruct (@fill_rows_spec b r (r + 8 * M) n (8 * P) M m 0 (r + 8 * M + M * (8 * N)) h2)
    as (h3 & F3 & C3 & SB3); fold N; fold M; try lia.
  { destruct SB as [B _]. rewrite B. now left. }
  { intros k Hk. apply INB. lia. }
  { intros k Hk. replace (r + 8 * M + 8 * k) with (r + 8 * (M + k)) by lia. apply INB. lia. }
  { intros k Hk. specialize (C k Hk). rewrite Z.add_0_l in C. rewrite C. f_equal. lia. }
  fold N in F3, C3, SB3. fold M in F3, C3, SB3. rewrite F3. intros [= <- <-].
  set (addr := fun x : Z * Z * Z =>
    r + 8 * (M + M * N + (P * (N * fst (fst x) + snd (fst x)) + snd x))).
  assert (I2 : forall i j, 0 <= i < M -> 0 <= j < N -> 0 <= N * i + j < M * N).
  { intros. now apply idx_lt. }
  assert (I3 : forall x, ok3 m n p x -> 0 <= P * (N * fst (fst x) + snd (fst x)) + snd x < M * N * P).
  { intros [[i j] k] [[H1 H2] H3]. cbn [fst snd] in *. apply idx_lt; auto. }
  assert (IN : forall x, ok3 m n p x -> inside b (addr x)).
  { intros x Hx. specialize (I3 x Hx). apply INB. lia. }
  set (tab := fun hh : heap =>
    (forall i, 0 <= i < M -> cells hh (r + 8 * i) = Ptr V (r + 8 * M + 8 * (N * i))) /\
    (forall i j, 0 <= i < M -> 0 <= j < N ->
       cells hh (r + 8 * M + 8 * (N * i + j)) = Ptr V (r + 8 * (M + M * N + P * (N * i + j))))).
  assert (BB : forall hh : heap, blocks hh = blocks h3 -> In b (blocks hh)).
  { intros hh ->. destruct SB as [B _], SB3 as [B3 _]. rewrite B3, B. now left. }
  assert (RP : forall hh x, ok3 m n p x -> blocks hh = blocks h3 -> tab hh ->
     row_ptr hh r (fst (fst x)) = Some (r + 8 * M + 8 * (N * fst (fst x))) /\
     row_ptr hh (r + 8 * M + 8 * (N * fst (fst x))) (snd (fst x))
       = Some (r + 8 * (M + M * N + P * (N * fst (fst x) + snd (fst x))))).
  { intros hh x [[H1 H2] H3] B [T1 T2]. fold M in H1. fold N in H2. fold P in H3.
    pose proof (I2 _ _ H1 H2) as J. unfold row_ptr. split.
    - rewrite (@load_in hh b); auto; [|apply INB; lia]. now rewrite T1.
    - replace (r + 8 * M + 8 * (N * fst (fst x)) + 8 * snd (fst x))
        with (r + 8 * M + 8 * (N * fst (fst x) + snd (fst x))) by lia.
      rewrite (@load_in hh b); auto; [|].
      + rewrite T2 by auto. reflexivity.
      + replace (r + 8 * M + 8 * (N * fst (fst x) + snd (fst x)))
          with (r + 8 * (M + (N * fst (fst x) + snd (fst x)))) by lia. apply INB. lia. }
  assert (T3 : tab h3).
  { split.
    - intros i Hi. destruct SB3 as [_ S3]. rewrite S3.
      + specialize (C i Hi). rewrite Z.add_0_l in C. rewrite C. f_equal. lia.
      + intros (k & j & Hk & Hj & Ek). pose proof (I2 k j). lia.
    - intros i j Hi Hj. rewrite C3 by lia. f_equal. rewrite Z.sub_0_r. lia. }
  apply array_like_gen with (b := b) (addr := addr) (tab := tab); auto.
  - apply eq3_iff.
  - intros [[i j] k] [[i' j'] k'] [[H1 H2] H3] [[H4 H5] H6] A. unfold addr in A.
    cbn [fst snd] in *. fold M in H1, H4. fold N in H2, H5. fold P in H3, H6.
    destruct (@cross (N * i + j) k (N * i' + j') k' P) as [E1 ->]; auto; [lia|].
    destruct (@cross i j i' j' N) as [-> ->]; auto.
  - intros hh1 hh2 x Hx B [T1 T2] [_ S]. specialize (I3 x Hx). split.
    + intros i Hi. rewrite S; auto. unfold addr. lia.
    + intros i j Hi Hj. pose proof (I2 i j Hi Hj). rewrite S; auto. unfold addr. lia.
  - intros hh x Hx B T. unfold get3, get2, get1. destruct (RP hh x Hx B T) as [-> ->].
    replace (r + 8 * (M + M * N + P * (N * fst (fst x) + snd (fst x))) + 8 * snd x) with (addr x)
      by (unfold addr; lia).
    rewrite (@load_in hh b); auto.
  - intros hh x v Hx B T. unfold put3, put2, put1. destruct (RP hh x Hx B T) as [-> ->].
    f_equal. unfold addr. lia.
  - intros x Hx. specialize (I3 x Hx). destruct SB as [_ S], SB3 as [_ S3]. rewrite S3.
    + rewrite S.
      * apply new_block_cells. now apply IN.
      * intros (k & Hk & Ek). unfold addr in Ek. lia.
    + intros (k & j & Hk & Hj & Ek). unfold addr in Ek. pose proof (I2 k j). lia.
  - intros a Ha. destruct (@new_block_frame h _ r (Num dzero) a E G Ha) as [L Nn]. split.
    + unfold load in *. fold h1 in L. rewrite <- L. destruct SB as [B S], SB3 as [B3 S3].
      unfold valid. rewrite B3, B. destruct (existsb _ _); auto. f_equal. rewrite S3; [rewrite S; auto|].
      * intros (k & Hk & ->). apply Nn. apply INB. lia.
      * intros (k & j & Hk & Hj & ->). pose proof (I2 k j). apply Nn.
        replace (r + 8 * M + 8 * (N * k + j)) with (r + 8 * (M + (N * k + j))) by lia. apply INB. lia.
    + intros x Hx <-. apply Nn. now apply IN.
Qed.

(* ------------------------------------------------------------------ *)
(* The compact identity. *)
Lemma zero_up_spec b : forall n p (h : heap), In b (blocks h) ->
  (forall k, 1 <= k <= Z.of_nat n -> inside b (p + 8 * k)) ->
  exists h', zero_up dzero n p h = Some (h', p + 8 * Z.of_nat n) /\
    (forall k, 1 <= k <= Z.of_nat n -> cells h' (p + 8 * k) = Num dzero) /\
    same_but (fun a => exists k, 1 <= k <= Z.of_nat n /\ a = p + 8 * k) h h'.
Proof.
  induction n as [|n IH]; intros p h Hb HI.
  - exists h. cbn [zero_up]. split; [do 2 f_equal; lia|]. split; [intros; lia|]. split; auto.
  - cbn [zero_up]. destruct (@store_spec h b (p + 8) (Num dzero) Hb) as (h1 & S & C & SB).
    { replace (p + 8) with (p + 8 * 1) by lia. apply HI. lia. }
    rewrite S. destruct (IH (p + 8) h1) as (h2 & F & C2 & SB2).
    { destruct SB as [B _]. now rewrite B. }
    { intros k Hk. replace (p + 8 + 8 * k) with (p + 8 * (k + 1)) by lia. apply HI. lia. }
    exists h2. split; [rewrite F; do 2 f_equal; lia|]. split.
    + intros k Hk. destruct (Z.eq_dec k 1) as [->|Nk].
      * destruct SB2 as [_ S2]. rewrite S2; [now replace (p + 8 * 1) with (p + 8) by lia|].
        intros (k' & Hk' & Ek). lia.
      * specialize (C2 (k - 1)). replace (p + 8 + 8 * (k - 1)) with (p + 8 * k) in C2 by lia.
        apply C2. lia.
    + eapply same_weaken; [|eapply same_trans; eassumption].
      intros a [->|(k & Hk & ->)].
      * exists 1. lia.
      * exists (k + 1). lia.
Qed.
Lemma rows_down_spec bd bi I : forall n i p (h : heap), In bd (blocks h) -> In bi (blocks h) ->
  disjoint bd bi ->
  (forall k, 0 <= k < Z.of_nat n -> inside bi (I + 8 * (i + k))) ->
  (forall k, 1 <= k <= Z.of_nat n -> inside bd (p - 8 * k)) ->
  exists h', rows_down dzero n i I p h = Some h' /\
    (forall k, 0 <= k < Z.of_nat n -> cells h' (I + 8 * (i + k)) = Ptr V (p - 8 * (k + 1))) /\
    (forall k, 1 <= k <= Z.of_nat n -> cells h' (p - 8 * k) = Num dzero) /\
    same_but (fun a => (exists k, 0 <= k < Z.of_nat n /\ a = I + 8 * (i + k)) \/
                       (exists k, 1 <= k <= Z.of_nat n /\ a = p - 8 * k)) h h'.
Proof.
  induction n as [|n IH]; intros i p h Hd Hi DJ HI HD.
  - exists h. cbn [rows_down]. split; auto. split; [intros; lia|]. split; [intros; lia|]. split; auto.
  - cbn [rows_down].
    destruct (@store_spec h bi (I + 8 * i) (Ptr V (p - 8)) Hi) as (h1 & Sx & C & SB).
    { replace (I + 8 * i) with (I + 8 * (i + 0)) by lia. apply HI. lia. }
    rewrite Sx.
    destruct (@store_spec h1 bd (p - 8) (Num dzero)) as (h2 & S2 & C2 & SB2).
    { destruct SB as [B _]. now rewrite B. }
    { replace (p - 8) with (p - 8 * 1) by lia. apply HD. lia. }
    rewrite S2.
    destruct (IH (i + 1) (p - 8) h2) as (h3 & F & C3 & D3 & SB3); auto.
    { destruct SB as [B _], SB2 as [B2 _]. now rewrite B2, B. }
    { destruct SB as [B _], SB2 as [B2 _]. now rewrite B2, B. }
    { intros k Hk. replace (i + 1 + k) with (i + (k + 1)) by lia. apply HI. lia. }
    { intros k Hk. replace (p - 8 - 8 * k) with (p - 8 * (k + 1)) by lia. apply HD. lia. }
    assert (AP : forall k k', 0 <= k < Z.of_nat (S n) -> 1 <= k' <= Z.of_nat (S n) ->
                 p - 8 * k' <> I + 8 * (i + k)).
    { intros k k' Hk Hk'. eapply inside_apart; eauto. }
    exists h3. split; auto. split; [|split].
    + intros k Hk. destruct (Z.eq_dec k 0) as [->|Nk].
      * destruct SB3 as [_ S3], SB2 as [_ S2']. replace (I + 8 * (i + 0)) with (I + 8 * i) by lia.
        rewrite S3, S2'; [rewrite C; f_equal; lia| |].
        -- intros Ek. apply (AP 0 1); lia.
        -- intros [(k & Hk' & Ek)|(k & Hk' & Ek)]; [lia|]. apply (AP 0 (k + 1)); lia.
      * specialize (C3 (k - 1)). replace (i + 1 + (k - 1)) with (i + k) in C3 by lia.
        rewrite C3 by lia. f_equal. lia.
    + intros k Hk. destruct (Z.eq_dec k 1) as [->|Nk].
      * destruct SB3 as [_ S3]. replace (p - 8 * 1) with (p - 8) by lia. rewrite S3, C2; auto.
        intros [(k & Hk' & Ek)|(k & Hk' & Ek)]; [|lia]. apply (AP (k + 1) 1); lia.
      * specialize (D3 (k - 1)). replace (p - 8 - 8 * (k - 1)) with (p - 8 * k) in D3 by lia.
        apply D3. lia.
    + eapply same_weaken; [|eapply same_trans; [eapply same_trans; eassumption|eassumption]].
      intros a [[->| ->]|[(k & Hk & ->)|(k & Hk & ->)]].
      * left. exists 0. lia.
      * right. exists 1. lia.
      * left. exists (k + 1). lia.
      * right. exists (k + 1). lia.
Qed.

(* two granted blocks *)
Definition grant2 (h : heap) (s1 r1 s2 r2 : Z) (c : cell) : Prop :=
  grant h s1 r1 /\ grant (new_block h s1 r1 c) s2 r2.

Theorem C28_identity (n : nat) (rd ri : Z) (h h' : heap) A :
  grant2 h (8 * (2 * Z.of_nat n - 1)) rd (8 * Z.of_nat n) ri (Num dzero) ->
  myallocI2 dzero done n rd ri h = Ok (A, h') ->
  (forall i j, 0 <= i < Z.of_nat n -> 0 <= j < Z.of_nat n ->
     get2 h' A i j = Some (if i =? j then done else dzero)) /\
  (forall a, valid h a = true -> load h' a = load h a) /\
  (* myfreeI2 returns exactly the two blocks *)
  exists h'', myfreeI2 n A h' = Some h'' /\
    forall b, In b (blocks h'') <-> In b (blocks h') /\ bbase b <> rd /\ bbase b <> ri.
Proof.
  intros [G1 G2]. unfold myallocI2.
  destruct (rd =? 0) eqn:E1; [discriminate|]. destruct (ri =? 0) eqn:E2; [discriminate|].
  destruct (Nat.eqb n 0) eqn:E3; [discriminate|]. cbn [orb].
  apply Z.eqb_neq in E1, E2. apply Nat.eqb_neq in E3.
  set (N := Z.of_nat n) in *. assert (1 <= N) by lia.
  set (hd := new_block h (8 * (2 * N - 1)) rd (Num dzero)) in *.
  set (h0 := new_block hd (8 * N) ri (Junk V)).
  set (bd := mkBlock rd (8 * (2 * N - 1))). set (bi := mkBlock ri (8 * N)).
  assert (DJ : disjoint bd bi).
  { destruct G2 as [G2|(_ & _ & G2)]; [contradiction|]. rewrite Forall_forall in G2.
    specialize (G2 bd). unfold disjoint in *. cbn in *. destruct G2; auto; lia. }
  assert (ID : forall k, 0 <= k <= 2 * N - 2 -> inside bd (rd + 8 * k)).
  { intros k Hk. apply (@inside_off bd k); unfold bd; cbn [bsize]; lia. }
  assert (II : forall k, 0 <= k < N -> inside bi (ri + 8 * k)).
  { intros k Hk. apply (@inside_off bi k); unfold bi; cbn [bsize]; lia. }
  assert (B0 : In bd (blocks h0) /\ In bi (blocks h0)) by (split; cbn; auto).
  destruct B0 as [Bd Bi].
  set (k0 := 8 * (N - 1)).
  destruct (@store_spec h0 bi (ri + 8 * 0) (Ptr V (rd + k0)) Bi) as (h1 & S1 & C1 & SB1).
  { apply II. lia. }
  rewrite S1.
  destruct (@store_spec h1 bd (rd + k0) (Num done)) as (h2 & S2 & C2 & SB2).
  { destruct SB1 as [B _]. now rewrite B. }
  { apply ID. lia. }
  rewrite S2.
  assert (BK2 : blocks h2 = blocks h0).
  { destruct SB1 as [B1 _], SB2 as [B2 _]. congruence. }
  assert (N1 : Z.of_nat (n - 1) = N - 1) by lia.
  destruct (@zero_up_spec bd (n - 1) (rd + k0) h2) as (h3 & S3 & C3 & SB3).
  { now rewrite BK2. }
  { intros k Hk. replace (rd + k0 + 8 * k) with (rd + 8 * (N - 1 + k)) by (unfold k0; lia). apply ID. lia. }
  rewrite S3.
  replace (rd + k0 + 8 * Z.of_nat (n - 1) - k0) with (rd + k0) by (unfold k0; lia).
  assert (BK3 : blocks h3 = blocks h0) by (destruct SB3 as [B3 _]; congruence).
  destruct (@rows_down_spec bd bi ri (n - 1) 1 (rd + k0) h3) as (h4 & S4 & C4 & D4 & SB4); auto.
  { now rewrite BK3. } { now rewrite BK3. }
  { intros k Hk. apply II. lia. }
  { intros k Hk. replace (rd + k0 - 8 * k) with (rd + 8 * (N - 1 - k)) by (unfold k0; lia). apply ID. lia. }
  rewrite S4. intros [= <- <-].
  assert (BK4 : blocks h4 = blocks h0) by (destruct SB4 as [B4 _]; congruence).
  assert (AP : forall k k', 0 <= k <= 2 * N - 2 -> 0 <= k' < N -> rd + 8 * k <> ri + 8 * k').
  { intros k k' Hk Hk'. eapply inside_apart; eauto. }
  assert (ROW : forall i, 0 <= i < N -> row_ptr h4 ri i = Some (rd + 8 * (N - 1 - i))).
  { intros i Hi. unfold row_ptr. rewrite (@load_in h4 bi); auto; [|now rewrite BK4].
    destruct (Z.eq_dec i 0) as [->|Ni].
    - destruct SB4 as [_ Q4], SB3 as [_ Q3], SB2 as [_ Q2]. rewrite Q4, Q3, Q2.
      + rewrite C1. do 2 f_equal. unfold k0. lia.
      + intros Ek. apply (AP (N - 1) 0); unfold k0 in *; lia.
      + intros (k & Hk & Ek). apply (AP (N - 1 + k) 0); unfold k0 in *; lia.
      + intros [(k & Hk & Ek)|(k & Hk & Ek)]; [lia|]. apply (AP (N - 1 - k) 0); unfold k0 in *; lia.
    - specialize (C4 (i - 1)). replace (1 + (i - 1)) with i in C4 by lia. rewrite C4 by lia.
      f_equal. unfold k0. lia. }
  assert (CELL : forall k, 0 <= k <= 2 * N - 2 ->
            cells h4 (rd + 8 * k) = Num (if k =? N - 1 then done else dzero)).
  { intros k Hk. destruct (k =? N - 1) eqn:Ek; [apply Z.eqb_eq in Ek; subst k|apply Z.eqb_neq in Ek].
    - destruct SB4 as [_ Q4], SB3 as [_ Q3]. change (rd + 8 * (N - 1)) with (rd + k0). rewrite Q4, Q3, C2; auto.
      + intros (k & Hk' & E). lia.
      + intros [(k & Hk' & E)|(k & Hk' & E)]; [|lia]. apply (AP (N - 1) (1 + k)); unfold k0 in *; lia.
    - destruct (Z.lt_ge_cases k (N - 1)) as [Lk|Gk].
      + specialize (D4 (N - 1 - k)). replace (rd + k0 - 8 * (N - 1 - k)) with (rd + 8 * k) in D4 by (unfold k0; lia).
        apply D4. lia.
      + destruct SB4 as [_ Q4]. rewrite Q4.
        * specialize (C3 (k - (N - 1))).
          replace (rd + k0 + 8 * (k - (N - 1))) with (rd + 8 * k) in C3 by (unfold k0; lia). apply C3. lia.
        * intros [(k' & Hk' & E)|(k' & Hk' & E)]; [apply (AP k (1 + k')); lia|]. unfold k0 in E. lia. }
  split; [|split].
  - intros i j Hi Hj. unfold get2, get1. rewrite ROW by auto.
    replace (rd + 8 * (N - 1 - i) + 8 * j) with (rd + 8 * (N - 1 - i + j)) by lia.
    rewrite (@load_in h4 bd); [|now rewrite BK4|apply ID; lia]. rewrite CELL by lia.
    destruct (i =? j) eqn:Eij.
    + apply Z.eqb_eq in Eij. subst j. now replace (N - 1 - i + i =? N - 1) with true by (symmetry; apply Z.eqb_eq; lia).
    + apply Z.eqb_neq in Eij. now replace (N - 1 - i + j =? N - 1) with false by (symmetry; apply Z.eqb_neq; lia).
  - intros a Ha. destruct (@new_block_frame h _ rd (Num dzero) a E1 G1 Ha) as [L1 Q1].
    assert (Ha' : valid hd a = true).
    { unfold valid in *. cbn. rewrite Ha. apply orb_true_r. }
    destruct (@new_block_frame hd _ ri (Junk V) a E2 G2 Ha') as [L2 Q2].
    fold hd in L1. fold h0 in L2. rewrite <- L1, <- L2. unfold load. unfold valid. rewrite BK4.
    destruct (existsb _ _); auto. f_equal.
    destruct SB1 as [_ X1], SB2 as [_ X2], SB3 as [_ X3], SB4 as [_ X4].
    assert (forall k, 0 <= k <= 2 * N - 2 -> a <> rd + 8 * k).
    { intros k Hk ->. now apply Q1, ID. }
    assert (forall k, 0 <= k < N -> a <> ri + 8 * k).
    { intros k Hk ->. now apply Q2, II. }
    rewrite X4, X3, X2, X1; auto.
    + apply H1. lia.
    + apply H0. lia.
    + intros (k & Hk & ->). apply (H0 (N - 1 + k)); unfold k0; lia.
    + intros [(k & Hk & ->)|(k & Hk & ->)]; [apply (H1 (1 + k)); lia|].
      apply (H0 (N - 1 - k)); unfold k0; lia.
  - unfold myfreeI2. fold N. rewrite ROW by lia. eexists. split; [reflexivity|].
    intros b. unfold release. cbn [blocks]. rewrite !filter_In, !negb_true_iff, !Z.eqb_neq.
    replace (rd + 8 * (N - 1 - (N - 1))) with rd by lia. tauto.
Qed.

(* ------------------------------------------------------------------ *)
(* Freeing: the block is gone, every other block keeps its contents. *)
Theorem C28_free (h : heap) (a : Z) : a <> 0 ->
  forall b x, In b (blocks h) -> bbase b <> a -> inside b x ->
  load (myfree a h) x = load h x.
Proof.
  intros NZ b x Hb Ha I. unfold myfree. apply Z.eqb_neq in NZ. rewrite NZ.
  rewrite (@load_in h b); auto. rewrite (@load_in (release h a) b); auto.
  cbn. apply filter_In. split; auto. apply negb_true_iff. now apply Z.eqb_neq.
Qed.

(* ------------------------------------------------------------------ *)
(* Too large requests: 2 x 2^60 doubles need 2^64 + 16 bytes; the size wraps to 16,
   the request is granted, no error is raised, and the row pointers lead out of the
   block. *)
Theorem C28_overflow_refuted :
  exists (m n : nat) (r : Z) (h h' : heap) A,
    grant h (size2 m n) r /\ size2 m n = 16 /\
    myalloc2 dzero m n r h = Ok (A, h') /\
    (forall j, get2 h' A 0 j = None).
Proof.
  set (n := Z.to_nat (2 ^ 60)).
  assert (EN : Z.of_nat n = 2 ^ 60) by (unfold n; apply Z2Nat.id; lia).
  assert (S16 : size2 2 n = 16).
  { unfold size2. rewrite EN. reflexivity. }
  set (h := mkHeap [] (fun _ => Num dzero)).
  exists 2%nat, n, 8, h.
  assert (N0 : Nat.ltb 0 n = true) by (apply Nat.ltb_lt; lia).
  clearbody n.
  unfold myalloc2. rewrite N0, S16. cbn [Nat.ltb Nat.leb andb Z.eqb].
  unfold populate_dpp. rewrite EN.
  eexists _, _. split.
  { right. split; [lia|]. split; [unfold W; lia|constructor]. }
  split; [reflexivity|]. split; [reflexivity|].
  intros j. unfold get2.
  set (hh := {| blocks := _; cells := _ |}).
  assert (RP : row_ptr hh 8 0 = Some 24) by reflexivity.
  rewrite RP. unfold get1, load. destruct (valid hh (24 + 8 * j)) eqn:Ev; auto.
  apply valid_inv in Ev. destruct Ev as (b & Hb & I). cbn in Hb.
  destruct Hb as [<-|[]]. unfold inside in I. cbn [bbase bsize] in I.
  assert (Hj : j = -1 \/ j = -2) by lia.
  destruct Hj as [-> | ->]; reflexivity.
Qed.

(* ------------------------------------------------------------------ *)
(* The hypotheses are met by an empty heap and every small request. *)
Example ex_alloc : exists h',
  grant (mkHeap [] (fun _ => Junk V)) (bytes2 2 3) 1000 /\ bytes2 2 3 < W /\
  myalloc2 dzero 2 3 1000 (mkHeap [] (fun _ => Junk V)) = Ok (1000, h').
Proof.
  eexists. split; [right; split; [lia|]; split; [unfold W; cbn; lia|constructor]|].
  split; [unfold W; cbn; lia|]. reflexivity.
Qed.
End Props.
