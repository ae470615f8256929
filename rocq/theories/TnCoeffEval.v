From Coq Require Import List Arith Bool Lia Reals Lra.
From Verif Require Import TnModel TnSpec TnProofs TnEnum TnInterp TnCoeffModel TnCoeffProofs.
Import ListNotations.
Local Open Scope R_scope.

(** ** Every direction has a nonzero coefficient *)
Definition hom (p r : nat) (f : list R -> R) : Prop :=
  exists ps : list (R * list nat),
    (forall q, In q ps -> length (snd q) = p /\ list_sum (snd q) = r) /\
    forall x, length x = p -> f x = rsum (fun q => fst q * mono x (snd q)) ps.

Lemma hom_ext : forall p r f g, (forall x, length x = p -> f x = g x) -> hom p r f -> hom p r g.
Proof. intros p r f g H (ps & A & B). exists ps. split; [exact A|]. intros x L. rewrite <- H by assumption. auto. Qed.
Lemma hom_one : forall p, hom p 0 (fun _ => 1).
Proof.
  intros p. exists [(1, repeat 0%nat p)]. split.
  - intros q [<-|[]]. cbn [snd]. split; [apply repeat_length|apply list_sum_zeros].
  - intros x <-. cbn [rsum fst snd]. assert (mono x (repeat 0%nat (length x)) = 1) as ->; [|ring].
    induction x; [reflexivity|]. cbn [length repeat mono pow]. rewrite IHx. ring.
Qed.
Lemma hom_zero : forall p r, hom p r (fun _ => 0).
Proof. intros. exists []. split; [intros q []|]. intros. reflexivity. Qed.
Lemma hom_plus : forall p r f g, hom p r f -> hom p r g -> hom p r (fun x => f x + g x).
Proof.
  intros p r f g (a & A & F) (b & B & G). exists (a ++ b). split.
  - intros q Q. apply in_app_or in Q. destruct Q; auto.
  - intros x L. rewrite rsum_app, F, G by assumption. reflexivity.
Qed.
Lemma hom_scal : forall p r c f, hom p r f -> hom p r (fun x => c * f x).
Proof.
  intros p r c f (a & A & F). exists (map (fun q => (c * fst q, snd q)) a). split.
  - intros q Q. apply in_map_iff in Q. destruct Q as (q' & <- & Q). exact (A q' Q).
  - intros x L. rewrite rsum_map, F by assumption. rewrite <- rsum_scal. apply rsum_ext. intros. cbn. ring.
Qed.
Fixpoint bump (u : nat) (l : list nat) : list nat :=
  match l with
  | [] => []
  | e :: l' => match u with O => S e :: l' | S u' => e :: bump u' l' end
  end.
Lemma bump_length : forall l u, length (bump u l) = length l.
Proof. induction l; intros [|u]; cbn; auto. Qed.
Lemma bump_sum : forall l u, (u < length l)%nat -> list_sum (bump u l) = S (list_sum l).
Proof.
  induction l; intros [|u] H; cbn [length] in H; try lia; cbn [bump]; rewrite !list_sum_cons; [lia|].
  rewrite IHl by lia. lia.
Qed.
Lemma mono_bump : forall l u x, length x = length l -> (u < length l)%nat ->
  mono x (bump u l) = nth u x 0 * mono x l.
Proof.
  induction l; intros [|u] [|b x] L H; cbn [length] in *; try lia; cbn [bump mono nth pow].
  - ring.
  - rewrite IHl by lia. ring.
Qed.
Lemma hom_var : forall p r u f, (u < p)%nat -> hom p r f -> hom p (S r) (fun x => nth u x 0 * f x).
Proof.
  intros p r u f U (a & A & F). exists (map (fun q => (fst q, bump u (snd q))) a). split.
  - intros q Q. apply in_map_iff in Q. destruct Q as (q' & <- & Q). cbn [snd].
    destruct (A q' Q) as [L E]. rewrite bump_length, bump_sum by lia. split; [exact L|lia].
  - intros x L. rewrite rsum_map, F by assumption. rewrite <- rsum_scal. apply rsum_ext. intros q Q. cbn [fst snd].
    destruct (A q Q) as [Lq _]. rewrite mono_bump by lia. ring.
Qed.
Lemma zsum_nth : forall x, zsum x = rsum (fun u => nth u x 0) (seq 0 (length x)).
Proof.
  induction x; [reflexivity|]. cbn [zsum length seq rsum nth]. rewrite rsum_shift, IHx. reflexivity.
Qed.
Lemma hom_zsum : forall p r f, hom p r f -> hom p (S r) (fun x => zsum x * f x).
Proof.
  intros p r f H.
  apply (hom_ext p (S r) (fun x => rsum (fun u => nth u x 0 * f x) (seq 0 p))).
  - intros x L. rewrite zsum_nth, L. rewrite Rmult_comm, <- rsum_scal. apply rsum_ext. intros. ring.
  - assert (forall l, (forall u, In u l -> (u < p)%nat) ->
      hom p (S r) (fun x => rsum (fun u => nth u x 0 * f x) l)) as G.
    { induction l as [|u l IH]; intros U; [apply hom_zero|].
      apply hom_plus; [apply hom_var; [apply U; now left|exact H]|]. apply IH. intros. apply U. now right. }
    apply G. intros u I. apply in_seq in I. lia.
Qed.

Fixpoint gbinh (c s x : R) (b : nat) : R :=
  match b with O => 1 | S b' => gbinh c s x b' * ((x - INR b' * (s * c)) / INR (S b')) end.
Fixpoint gbh (c s : R) (z : list R) (j : list nat) : R :=
  match z, j with x :: z', a :: j' => gbinh c s x a * gbh c s z' j' | _, _ => 1 end.
Lemma gbh_gb : forall c s z j, s * c = 1 -> gbh c s z j = gb z j.
Proof.
  intros c s z j E. revert j. induction z; intros [|b j]; cbn [gbh gb]; try reflexivity. rewrite IHz. f_equal.
  induction b; [reflexivity|]. cbn [gbinh gbin]. rewrite IHb, E, Rmult_1_r. reflexivity.
Qed.
Lemma skipn_nth : forall (x : list R) u, (u < length x)%nat -> skipn u x = nth u x 0 :: skipn (S u) x.
Proof.
  induction x; intros [|u] H; cbn [length] in H; try lia; [reflexivity|]. cbn [skipn nth]. rewrite IHx by lia. reflexivity.
Qed.
Lemma hom_gbh : forall c p j u, (u + length j <= p)%nat ->
  hom p (list_sum j) (fun x => gbh c (zsum x) (skipn u x) j).
Proof.
  intros c p. induction j as [|a j IH]; intros u H.
  - apply (hom_ext p 0 (fun _ => 1)); [|apply hom_one]. intros x L. destruct (skipn u x); reflexivity.
  - cbn [length] in H. rewrite list_sum_cons.
    apply (hom_ext p (a + list_sum j) (fun x => gbinh c (zsum x) (nth u x 0) a * gbh c (zsum x) (skipn (S u) x) j)).
    { intros x L. rewrite (skipn_nth x u) by lia. reflexivity. }
    specialize (IH (S u) ltac:(lia)). induction a as [|a IHa]; cbn [Nat.add].
    + apply (hom_ext p (list_sum j) (fun x => gbh c (zsum x) (skipn (S u) x) j)); [|exact IH].
      intros x L. cbn [gbinh]. ring.
    + set (g := fun x => gbinh c (zsum x) (nth u x 0) a * gbh c (zsum x) (skipn (S u) x) j) in *.
      apply (hom_ext p (S (a + list_sum j))
        (fun x => / INR (S a) * (nth u x 0 * g x) + (- (INR a * c) / INR (S a)) * (zsum x * g x))).
      { intros x L. unfold g. cbn [gbinh]. field. apply Sn0. }
      apply hom_plus; apply hom_scal; [apply hom_var; [lia|exact IHa]|apply hom_zsum; exact IHa].
Qed.

Lemma deficit : forall l i, length l = length i -> list_sum l = list_sum i -> l <> i ->
  exists u, (nth u l 0 < nth u i 0)%nat.
Proof.
  assert (X : forall l i, length l = length i -> (list_sum l < list_sum i)%nat -> exists u, (nth u l 0 < nth u i 0)%nat).
  { induction l as [|a l IHl]; intros [|b i] L Q; try discriminate L; [cbn in Q; lia|].
    rewrite !list_sum_cons in Q. injection L as L.
    destruct (Nat.lt_ge_cases a b); [exists 0%nat; cbn; lia|].
    destruct (IHl i L ltac:(lia)) as (u & U). exists (S u). exact U. }
  induction l as [|a l IHl]; intros [|b i] L Q N; try discriminate L; [congruence|].
  rewrite !list_sum_cons in Q. injection L as L.
  destruct (Nat.lt_trichotomy a b) as [G|[->|G]].
  - exists 0%nat. exact G.
  - destruct (IHl i L ltac:(lia)) as (u & U); [congruence|]. exists (S u). exact U.
  - destruct (X l i L ltac:(lia)) as (u & U). exists (S u). exact U.
Qed.
Lemma gbin_short : forall a b, (a < b)%nat -> gbin (INR a) b = 0.
Proof.
  intros a b H. induction H; cbn [gbin].
  - replace (INR a - INR a) with 0 by ring. unfold Rdiv. ring.
  - rewrite IHle. ring.
Qed.
Lemma gb_delta : forall j j0, length j = length j0 -> list_sum j = list_sum j0 ->
  gb (real j) j0 = if list_eq_dec Nat.eq_dec j j0 then 1 else 0.
Proof.
  intros j j0 L E. destruct (list_eq_dec Nat.eq_dec j j0) as [->|N].
  - clear. induction j0; [reflexivity|]. cbn [real map gb]. fold (real j0). rewrite IHj0, gbin_diag. ring.
  - destruct (deficit j j0 L E N) as (u & U). clear E N. revert j j0 L U.
    induction u; intros [|a j] [|b j0] L U; try discriminate L; cbn [nth] in U; try lia;
      cbn [real map gb]; fold (real j).
    + rewrite gbin_short by assumption. ring.
    + injection L as L. rewrite (IHu j j0 L U). ring.
Qed.

Lemma rsum_single : forall (v : list nat) (g : R) l, NoDup l -> In v l ->
  rsum (fun i => if list_eq_dec Nat.eq_dec v i then g else 0) l = g.
Proof.
  induction l as [|w l IH]; intros U I; [destruct I|]. inversion U; subst. cbn [rsum].
  destruct (list_eq_dec Nat.eq_dec v w) as [->|N].
  - rewrite rsum_zero; [ring|]. intros a A. destruct (list_eq_dec Nat.eq_dec w a) as [->|]; [contradiction|reflexivity].
  - rewrite IH; [ring|assumption|]. destruct I; [congruence|assumption].
Qed.
Lemma factl_pos : forall i, factl i <> 0.
Proof.
  induction i; cbn [factl]; [lra|]. apply Rmult_integral_contrapositive. split; [|exact IHi].
  apply not_0_INR. apply fact_neq_0.
Qed.

Lemma some_coefficient : forall j0, (0 < list_sum j0)%nat ->
  exists i, In i (vectors (length j0) (list_sum j0)) /\ gamma (list_sum j0) i j0 <> 0.
Proof.
  intros j0 D. set (d := list_sum j0) in *. set (p := length j0).
  assert (Dn : INR d <> 0) by (apply not_0_INR; lia).
  (* decide by contradiction, over a finite list *)
  assert (forall l, (exists i, In i l /\ gamma d i j0 <> 0) \/ (forall i, In i l -> gamma d i j0 = 0)) as Dec.
  { induction l as [|i l [(i' & I & H)|H]]; [right; intros i []|left; exists i'; split; [now right|exact H]|].
    destruct (Req_dec (gamma d i j0) 0) as [Z|Z].
    - right. intros i' [<-|I]; auto.
    - left. exists i. split; [now left|exact Z]. }
  destruct (Dec (vectors p d)) as [H|H]; [exact H|exfalso].
  destruct (hom_gbh (/ INR d) p j0 0 ltac:(unfold p; lia)) as (ps & A & F). cbn [skipn] in F. fold d in A.
  assert (V : forall j, In j (vectors p d) -> length j = p /\ list_sum j = d) by (intros j; apply vectors_in).
  assert (Fj : forall j, In j (vectors p d) ->
     rsum (fun q => fst q * mono (real j) (snd q)) ps = if list_eq_dec Nat.eq_dec j j0 then 1 else 0).
  { intros j J. destruct (V j J) as [L E]. rewrite <- F by (unfold real; now rewrite map_length).
    rewrite gbh_gb.
    - apply gb_delta; assumption.
    - rewrite zsum_real, E. now field. }
  assert (Z : forall i, In i (vectors p d) ->
     rsum (fun q => if list_eq_dec Nat.eq_dec (snd q) i then fst q else 0) ps = 0).
  { intros i I. destruct (V i I) as [L E].
    apply (Rmult_eq_reg_r (factl i)); [|apply factl_pos]. rewrite Rmult_0_l.
    transitivity (rsum (fun j => gamma d i j * (if list_eq_dec Nat.eq_dec j j0 then 1 else 0)) (vectors p d)).
    - transitivity (rsum (fun j => gamma d i j * rsum (fun q => fst q * mono (real j) (snd q)) ps) (vectors p d)).
      2:{ apply rsum_ext. intros j J. now rewrite Fj. }
      transitivity (rsum (fun q => fst q * rsum (fun j => gamma d i j * mono (real j) (snd q)) (vectors p d)) ps).
      + rewrite Rmult_comm, <- rsum_scal. apply rsum_ext. intros q Q. destruct (A q Q) as [Lq Eq].
        rewrite <- L. rewrite gamma_monomial; [|congruence|congruence|lia].
        destruct (list_eq_dec Nat.eq_dec (snd q) i); ring.
      + rewrite (rsum_ext _ _ (fun q => rsum (fun j => fst q * (gamma d i j * mono (real j) (snd q))) (vectors p d)))
          by (intros; now rewrite rsum_scal).
        rewrite rsum_swap. apply rsum_ext. intros j J. rewrite <- rsum_scal. apply rsum_ext. intros. ring.
    - apply rsum_zero. intros j J. destruct (list_eq_dec Nat.eq_dec j j0) as [->|]; [|ring].
      rewrite (H i I). ring. }
  assert (I0 : In j0 (vectors p d)) by (apply vectors_in; split; reflexivity).
  pose proof (Fj j0 I0) as One. destruct (list_eq_dec Nat.eq_dec j0 j0) as [_|]; [|congruence].
  assert (rsum (fun q => fst q * mono (real j0) (snd q)) ps
    = rsum (fun i => mono (real j0) i * rsum (fun q => if list_eq_dec Nat.eq_dec (snd q) i then fst q else 0) ps) (vectors p d)) as E.
  { rewrite (rsum_ext _ (fun i => mono (real j0) i * _)
      (fun i => rsum (fun q => if list_eq_dec Nat.eq_dec (snd q) i then fst q * mono (real j0) (snd q) else 0) ps)).
    - rewrite rsum_swap. apply rsum_ext. intros q Q. destruct (A q Q) as [Lq Eq].
      rewrite rsum_single; [reflexivity|apply vectors_nodup|]. apply vectors_in. split; assumption.
    - intros i I. rewrite <- rsum_scal. apply rsum_ext. intros q Q.
      destruct (list_eq_dec Nat.eq_dec (snd q) i) as [->|]; ring. }
  rewrite One in E. rewrite rsum_zero in E; [lra|]. intros i I. rewrite Z by assumption. ring.
Qed.

(** ** The loops over the orders and the directions *)
Definition items_for (d : nat) (j : list nat) : list item :=
  flat_map (fun o => flat_map (item_of d j) (vectors (length j) o)) (seq 1 d).

Definition enough (p d fuel : nat) : Prop :=
  forall o i, (o <= d)%nat -> In i (vectors p o) -> (length (box i) + length (vectors p o) <= fuel)%nat.

Lemma start_im : forall p o im o', (0 < p)%nat -> agrees im (repeat 0%nat (p - 1) ++ [o']) ->
  agrees (put (put im (p - 1) 0%nat) 0 o) (o :: repeat 0%nat (p - 1)).
Proof.
  intros p o im o' P H j J. cbn [length] in J. rewrite repeat_length in J. unfold put.
  destruct (Nat.eqb_spec j 0) as [->|]; [reflexivity|].
  destruct j as [|j]; [lia|]. cbn [nth]. rewrite nth_repeat.
  destruct (Nat.eqb_spec (S j) (p - 1)); [reflexivity|].
  rewrite H by (rewrite app_length, repeat_length; cbn; lia).
  rewrite app_nth1 by (rewrite repeat_length; lia). apply nth_repeat.
Qed.

Lemma orders_ok : forall l fuel j jm im km o' items, (0 < length j)%nat ->
  enough (length j) (list_sum j) fuel -> (forall o, In o l -> (o <= list_sum j)%nat) ->
  agrees jm j -> agrees im (repeat 0%nat (length j - 1) ++ [o']) -> agrees km (repeat 0%nat (length j)) ->
  exists im' km' o'', orders fuel (length j) (list_sum j) jm im km 0%nat items l
    = Some (im', km', 0%nat, items ++ flat_map (fun o => flat_map (item_of (list_sum j) j) (vectors (length j) o)) l)
    /\ agrees im' (repeat 0%nat (length j - 1) ++ [o'']) /\ agrees km' (repeat 0%nat (length j)).
Proof.
  induction l as [|o l IH]; intros fuel j jm im km o' items P En B J I K; cbn [orders flat_map].
  - exists im, km, o'. rewrite app_nil_r. repeat split; assumption.
  - pose proof (start_im (length j) o im o' P I) as I1.
    assert (exists p, length j = S p) as (p & Lj) by (exists (length j - 1)%nat; lia).
    pose proof (vectors_hd p o) as H. rewrite <- Lj in H.
    destruct (vectors (length j) o) as [|i rest] eqn:E; [discriminate H|].
    injection H as ->. replace p with (length j - 1)%nat in * by lia.
    assert (In (o :: repeat 0%nat (length j - 1)) (vectors (length j) o)) as Ii by (rewrite E; now left).
    destruct (imloop_ok rest fuel o j (o :: repeat 0%nat (length j - 1)) jm (put (put im (length j - 1) 0%nat) 0 o) km items)
      as (im' & km' & Q & F1 & F2); try assumption.
    + exists []. exact E.
    + pose proof (En o _ (B o (or_introl eq_refl)) Ii) as X. rewrite E in X. cbn [length] in X. lia.
    + intros i Iv. pose proof (En o i (B o (or_introl eq_refl)) Iv) as X. rewrite E in X. cbn [length] in X. lia.
    + rewrite Q.
      destruct (IH fuel j jm im' km' o (items ++ flat_map (item_of (list_sum j) j) ((o :: repeat 0%nat (length j - 1)) :: rest)))
        as (im2 & km2 & o2 & R & G1 & G2); try assumption.
      * intros x X. apply B. now right.
      * exists im2, km2, o2. split; [|split; assumption]. rewrite R. rewrite <- app_assoc. reflexivity.
Qed.

Lemma items_nonempty : forall j, (0 < list_sum j)%nat -> items_for (list_sum j) j <> [].
Proof.
  intros j D E. destruct (some_coefficient j D) as (i & I & G).
  assert (In (mkItem (coeff_address (length i) (list_sum j) (list_sum i) (array i)) (list_sum i) (gamma (list_sum j) i j)) (items_for (list_sum j) j)) as X.
  { unfold items_for. apply in_flat_map. exists (list_sum j). split; [apply in_seq; lia|].
    apply in_flat_map. exists i. split; [exact I|]. unfold item_of.
    destruct (Rlt_dec _ _) as [|N]; [now left|]. exfalso. apply N. now apply Rabs_pos_lt. }
  rewrite E in X. exact X.
Qed.

Lemma jmloop_ok : forall rest fuel p d j jm im km o' lists,
  (0 < p)%nat -> (0 < d)%nat ->
  (exists pre, vectors p d = pre ++ j :: rest) ->
  (forall k, (k <= length rest)%nat -> enough p d (fuel - k)) -> (length rest < fuel)%nat ->
  agrees jm j -> agrees im (repeat 0%nat (p - 1) ++ [o']) -> agrees km (repeat 0%nat p) ->
  jmloop fuel p d jm im km 0%nat lists = Some (lists ++ map (items_for d) (j :: rest)).
Proof.
  induction rest as [|j' rest IH]; intros fuel p d j jm im km o' lists P D (pre & E) En Fu J I K;
    (destruct fuel as [|fuel]; [cbn in Fu; lia|]);
    (assert (In j (vectors p d)) as Inj by (rewrite E; apply in_elt));
    (pose proof (proj1 (vectors_in _ _ _) Inj) as [Lj Sj]);
    cbn [jmloop];
    (destruct (orders_ok (seq 1 d) (S fuel) j jm im km o' [])
       as (im' & km' & o2 & Q & F1 & F2);
     [lia | rewrite Lj, Sj; apply (En 0%nat); lia
     |intros o O; apply in_seq in O; lia|assumption|now rewrite Lj|now rewrite Lj|]);
    rewrite Lj, Sj in Q; rewrite Q; cbn [app];
    (assert (flat_map (fun o => flat_map (item_of d j) (vectors p o)) (seq 1 d) = items_for d j) as Ei
      by (unfold items_for; now rewrite Lj)); rewrite Ei;
    (assert (items_for d j <> []) as Ne by (rewrite <- Sj; apply items_nonempty; lia));
    (destruct (items_for d j) as [|it its] eqn:Eit; [congruence|]); rewrite <- Eit; clear Ne;
    rewrite Lj in F1, F2;
    (assert (jm (p - 1)%nat = nth (p - 1) j 0%nat) as Im by (apply J; lia)).
  - assert (j = repeat 0%nat (p - 1) ++ [d]) as Ej.
    { destruct p as [|p]; [lia|]. destruct (vectors_last p d) as (l' & E'). rewrite E' in E.
      apply app_inj_tail in E. destruct E as [_ E]. rewrite <- E. f_equal. f_equal. lia. }
    assert ((jm (p - 1)%nat =? d)%nat = true) as Eo.
    { rewrite Im, Ej. rewrite app_nth2; rewrite repeat_length; [|lia]. rewrite Nat.sub_diag. apply Nat.eqb_refl. }
    rewrite Eo. cbn [orb]. reflexivity.
  - assert (j <> repeat 0%nat (p - 1) ++ [d]) as Ni.
    { intros Ej. destruct p as [|p]; [lia|]. destruct (vectors_last p d) as (l' & E').
      pose proof (vectors_nodup (S p) d) as U. rewrite E in U.
      replace (S p - 1)%nat with p in Ej by lia. rewrite E in E'.
      assert (last (pre ++ j :: j' :: rest) [] = j) as La.
      { rewrite E', last_last. now symmetry. }
      apply NoDup_remove_2 in U. apply U. apply in_or_app. right.
      rewrite <- La.
      assert (forall (A : Type) (dd x : A) l, In (last (x :: l) dd) (x :: l)) as InL.
      { clear. intros A dd x l. revert x. induction l as [|y l IH]; intros x; [now left|]. right. apply IH. }
      assert (last (pre ++ j :: j' :: rest) [] = last (j' :: rest) []) as ->.
      { clear. induction pre as [|q pre IH]; [reflexivity|]. cbn [app].
        destruct (pre ++ j :: j' :: rest) eqn:Z; [destruct pre; discriminate Z|]. exact IH. }
      apply InL. }
    assert ((jm (p - 1)%nat =? d)%nat = false) as Eo.
    { rewrite Im. destruct p as [|p]; [lia|]. replace (S p - 1)%nat with p in * by lia.
      destruct (nth p j 0%nat =? d)%nat eqn:Z; [|reflexivity]. apply (last_vector p d j Inj) in Z. contradiction. }
    assert ((p =? 1)%nat = false) as Ep.
    { apply Nat.eqb_neq. intros Z. rewrite Z in *. apply Ni. cbn. destruct j as [|x [|]]; try discriminate Lj.
      rewrite list_sum_cons in Sj. change (list_sum []) with 0%nat in Sj. f_equal. lia. }
    rewrite Eo, Ep. cbn [orb].
    assert (lexnext j j') as Nx.
    { destruct p as [|p]; [lia|].
      apply (chain_nth _ (vectors (S p) d) (length pre)); [apply vectors_chain| |].
      - rewrite E, nth_error_app2, Nat.sub_diag by lia. reflexivity.
      - rewrite E, nth_error_app2 by lia. replace (S (length pre) - length pre)%nat with 1%nat by lia. reflexivity. }
    destruct (next_jm_ok j j' jm Nx J) as [Lj' N']. rewrite Lj in N', Lj'.
    rewrite (IH fuel p d j' (next_jm p jm) im' km' o2 (lists ++ [items_for d j])); try assumption.
    + rewrite <- app_assoc. reflexivity.
    + exists (pre ++ [j]). rewrite <- app_assoc. exact E.
    + intros k Hk. specialize (En (S k)). cbn [length Nat.sub] in En. apply En. lia.
    + cbn in Fu. lia.
    + intros x X. apply N'. lia.
Qed.

Lemma list_bound : forall (A : Type) (f : A -> nat) l, exists N, forall x, In x l -> (f x <= N)%nat.
Proof.
  induction l as [|a l (N & IH)]; [exists 0%nat; intros x []|].
  exists (f a + N)%nat. intros x [<-|I]; [lia|]. specialize (IH x I). lia.
Qed.
Lemma enough_exists : forall p d, exists N, forall fuel, (N <= fuel)%nat -> enough p d fuel.
Proof.
  intros p d.
  destruct (list_bound _ (fun q : nat * list nat => length (box (snd q)) + length (vectors p (fst q)))%nat
     (flat_map (fun o => map (pair o) (vectors p o)) (seq 0 (S d)))) as (N & H).
  exists N. intros fuel F o i O I.
  specialize (H (o, i)). cbn [fst snd] in H. etransitivity; [apply H|exact F].
  apply in_flat_map. exists o. split; [apply in_seq; lia|]. now apply in_map.
Qed.

(** coeff terminates, without touching a null pointer, with the coefficients *)
Lemma coeff_ok : forall p d, (0 < p)%nat -> (0 < d)%nat ->
  exists N, forall fuel, (N <= fuel)%nat -> coeff fuel p d = Some (map (items_for d) (vectors p d)).
Proof.
  intros p d P D. destruct (enough_exists p d) as (N & H).
  exists (N + length (vectors p d))%nat. intros fuel F. unfold coeff.
  destruct p as [|p]; [lia|].
  pose proof (vectors_hd p d) as Hd. destruct (vectors (S p) d) as [|j rest] eqn:E; [discriminate Hd|].
  injection Hd as ->. cbn [length] in F.
  rewrite (jmloop_ok rest fuel (S p) d (d :: repeat 0%nat p) _ _ _ 0%nat); try assumption; try lia.
  - reflexivity.
  - exists []. exact E.
  - intros k K. apply H. lia.
  - intros i I. unfold put. destruct i; [reflexivity|]. cbn [Nat.eqb nth]. now rewrite nth_repeat.
  - intros i I. rewrite app_length, repeat_length in I. cbn [length] in I.
    replace (repeat 0%nat (S p - 1) ++ [0%nat]) with (repeat 0%nat (S p)) by (rewrite repeat_snoc; do 2 f_equal; lia).
    now rewrite nth_repeat.
  - intros i I. now rewrite nth_repeat.
Qed.
