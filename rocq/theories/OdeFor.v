(* C45: forode computes the Taylor coefficients of the solution of x' = tau F(x). *)
From Coq Require Import List ZArith Bool Arith Lia Reals Lra FunctionalExtensionality.
From Coquelicot Require Import Coquelicot.
Require Import Verif.AdModel Verif.AdRecord Verif.AdSpec Verif.AdReplay Verif.AdRestore
  Verif.AdTidyCalls Verif.AdPlain Verif.AdPlainRun Verif.AdProps Verif.AdSelect
  Verif.AdReal Verif.AdLin Verif.AdReverse Verif.AdReverseProps Verif.AdDeriv Verif.AdTangent
  Verif.AdDerivProps Verif.AdDerivEx Verif.StatModel Verif.StatProps
  Verif.HosModel Verif.HosSpec Verif.HosTay Verif.HosFun Verif.HosLoops Verif.HosProofs Verif.HosProps Verif.HosEx
  Verif.DrvModel Verif.DrvSpec Verif.DrvProps Verif.DrvTrace
  Verif.OdeModel Verif.OdeSpec Verif.OdeAcc.
Import ListNotations.
Set Implicit Arguments.
Unset Asymmetric Patterns.
Local Open Scope R_scope.

(* ------------------------------------------------------------------ *)
(* the moves of the rows *)
Section Moves.
Variable K : Arith.
Notation krows := (HosModel.rows K).
Lemma put_at (Y : krows) i k v : put Y i k v i k = v.
Proof. unfold put. now rewrite !Nat.eqb_refl. Qed.
Lemma put_off (Y : krows) i k v i' k' : ~ (i' = i /\ k' = k) -> put Y i k v i' k' = Y i' k'.
Proof. intros H. unfold put. destruct (Nat.eqb_spec i' i); [|reflexivity]. destruct (Nat.eqb_spec k' k); [|reflexivity]. tauto. Qed.
Lemma upd_at (y : mem K) i v : upd y i v i = v.
Proof. unfold upd. now rewrite Nat.eqb_refl. Qed.
Lemma upd_off (y : mem K) i v i' : i' <> i -> upd y i v i' = y i'.
Proof. intros H. unfold upd. destruct (Nat.eqb_spec i' i); [tauto|reflexivity]. Qed.

Lemma shift_row deg i (Y : krows) : forall i' k',
  up deg (fun k Y => put Y i k (Y i (S k))) Y i' k' = if ((i' =? i) && (k' <? deg))%nat then Y i (S k') else Y i' k'.
Proof.
  induction deg as [|d IH]; intros i' k'; cbn [up].
  - now rewrite andb_false_r.
  - destruct (Nat.eq_dec i' i) as [->|Ni].
    + rewrite Nat.eqb_refl. cbn [andb]. destruct (Nat.eq_dec k' d) as [->|Nk].
      * rewrite put_at, IH. destruct (Nat.ltb_spec (S d) d); [lia|]. rewrite andb_false_r. destruct (Nat.ltb_spec d (S d)); [reflexivity|lia].
      * rewrite put_off by tauto. rewrite IH, Nat.eqb_refl. cbn [andb]. destruct (Nat.ltb_spec k' d), (Nat.ltb_spec k' (S d)); try lia; reflexivity.
    + rewrite put_off by tauto. rewrite IH. destruct (Nat.eqb_spec i' i); [tauto|]. reflexivity.
Qed.
Lemma take_off_ok n deg (Y : krows) : let (y, Y') := take_off n deg Y in
  (forall i, (i < n)%nat -> y i = Y i 0%nat) /\
  (forall i k, Y' i k = if ((i <? n) && (k <? deg))%nat then Y i (S k) else Y i k).
Proof.
  unfold take_off. set (body := fun i (s : mem K * krows) => _).
  assert (Q : (forall i, (i < n)%nat -> fst (up n body (fun _ => zero K, Y)) i = Y i 0%nat) /\
    (forall i k, snd (up n body (fun _ => zero K, Y)) i k = if ((i <? n) && (k <? deg))%nat then Y i (S k) else Y i k)).
  { apply (@up_inv (mem K * krows) (fun n s => (forall i, (i < n)%nat -> fst s i = Y i 0%nat) /\
      (forall i k, snd s i k = if ((i <? n) && (k <? deg))%nat then Y i (S k) else Y i k))).
    - split; [intros; lia|]. intros i k. reflexivity.
    - intros i [y Y1] Hi [A B]. unfold body. cbn [fst snd] in *. split.
      + intros i' Hi'. destruct (Nat.eq_dec i' i) as [->|N].
        * rewrite upd_at, B. destruct (Nat.ltb_spec i i); [lia|reflexivity].
        * rewrite upd_off by exact N. apply A. lia.
      + intros i' k'. rewrite shift_row, !B. destruct (Nat.eqb_spec i' i) as [->|N]; cbn [andb].
        * destruct (Nat.ltb_spec i i); [lia|]. destruct (Nat.ltb_spec i (S i)); [|lia]. cbn [andb]. reflexivity.
        * destruct (Nat.ltb_spec i' i), (Nat.ltb_spec i' (S i)); try lia; reflexivity. }
  destruct (up n body (fun _ => zero K, Y)) as [y Y']. exact Q.
Qed.
Lemma unshift_row deg i (Y : krows) : forall i' k',
  dn deg (fun k Y => put Y i (S k) (Y i k)) Y i' k' =
  if ((i' =? i) && (k' <=? deg))%nat then match k' with 0%nat => Y i 0%nat | S k => Y i k end else Y i' k'.
Proof.
  revert Y. induction deg as [|d IH]; intros Y i' k'; cbn [dn].
  - destruct (Nat.eqb_spec i' i) as [->|N]; cbn [andb]; [|reflexivity]. destruct k' as [|k']; [reflexivity|]. destruct (Nat.leb_spec (S k') 0); [lia|reflexivity].
  - rewrite IH. destruct (Nat.eqb_spec i' i) as [->|N]; cbn [andb].
    + destruct (Nat.leb_spec k' d), (Nat.leb_spec k' (S d)); try lia.
      * destruct k' as [|k']; rewrite put_off by lia; reflexivity.
      * replace k' with (S d) by lia. now rewrite put_at.
      * now rewrite put_off by lia.
    + now rewrite put_off by tauto.
Qed.
Lemma put_back_ok n deg (y : mem K) (Y : krows) i k :
  put_back n deg y Y i k = if ((i <? n) && (k <=? deg))%nat then match k with 0%nat => y i | S k => Y i k end else Y i k.
Proof.
  unfold put_back. revert i k.
  apply (@up_inv krows (fun n Y' => forall i k, Y' i k = if ((i <? n) && (k <=? deg))%nat then match k with 0%nat => y i | S k => Y i k end else Y i k)).
  - reflexivity.
  - intros i Y1 Hi A i' k'. destruct (Nat.eq_dec i' i) as [->|N].
    + destruct (Nat.ltb_spec i (S i)); [|lia]. cbn [andb]. destruct k' as [|k'].
      * rewrite put_at. reflexivity.
      * rewrite put_off by lia. rewrite unshift_row, Nat.eqb_refl. cbn [andb]. destruct (Nat.leb_spec (S k') deg); rewrite A; destruct (Nat.ltb_spec i i); try lia; reflexivity.
    + rewrite put_off by tauto. rewrite unshift_row. destruct (Nat.eqb_spec i' i); [tauto|]. cbn [andb]. rewrite A.
      destruct (Nat.ltb_spec i' i), (Nat.ltb_spec i' (S i)); try lia; reflexivity.
Qed.
Lemma set_col n j (v : nat -> krows -> V K) (Y : krows) : (forall i Y Y', (forall i k, k <> j -> Y' i k = Y i k) -> v i Y' = v i Y) -> forall i k,
  up n (fun i Y => put Y i j (v i Y)) Y i k = if ((i <? n) && (k =? j))%nat then v i Y else Y i k.
Proof.
  intros Hv. apply (@up_inv krows (fun n Y' => forall i k, Y' i k = if ((i <? n) && (k =? j))%nat then v i Y else Y i k)).
  - reflexivity.
  - intros i Y1 Hi A i' k'. destruct (Nat.eq_dec i' i) as [->|N]; [destruct (Nat.eq_dec k' j) as [->|Nk]|].
    + rewrite put_at. destruct (Nat.ltb_spec i (S i)); [|lia]. rewrite Nat.eqb_refl. cbn [andb]. apply Hv.
      intros i0 k0 H0. rewrite A. destruct (Nat.eqb_spec k0 j); [tauto|]. now rewrite andb_false_r.
    + rewrite put_off by tauto. rewrite A. destruct (Nat.eqb_spec k' j); [tauto|]. now rewrite !andb_false_r.
    + rewrite put_off by tauto. rewrite A. destruct (Nat.ltb_spec i' i), (Nat.ltb_spec i' (S i)); try lia; reflexivity.
Qed.
Lemma set_block n j (c : krows) (Zr : krows) i k : (i < n)%nat -> (k < j)%nat ->
  up n (fun i Zr => up j (fun k Zr => put Zr i k (c i k)) Zr) Zr i k = c i k.
Proof.
  revert i k. apply (@up_inv krows (fun n Z' => forall i k, (i < n)%nat -> (k < j)%nat -> Z' i k = c i k)).
  - intros; lia.
  - intros i Z1 Hi A i' k' I Hk.
    assert (Q : forall m Z2, up m (fun k Zr => put Zr i k (c i k)) Z2 i' k' = if ((i' =? i) && (k' <? m))%nat then c i k' else Z2 i' k').
    { induction m as [|m IH]; intros Z2; cbn [up]; [now rewrite andb_false_r|].
      destruct (Nat.eqb_spec i' i) as [->|N]; cbn [andb] in *.
      - destruct (Nat.eq_dec k' m) as [->|Nk].
        + rewrite put_at. destruct (Nat.ltb_spec m (S m)); [reflexivity|lia].
        + rewrite put_off by tauto. rewrite IH. destruct (Nat.ltb_spec k' m), (Nat.ltb_spec k' (S m)); try lia; reflexivity.
      - rewrite put_off by tauto. apply IH. }
    rewrite Q. destruct (Nat.eqb_spec i' i) as [->|N]; cbn [andb].
    + destruct (Nat.ltb_spec k' j); [reflexivity|lia].
    + apply A; lia.
Qed.
Lemma set_vec n (c : nat -> V K) (z : mem K) i : (i < n)%nat -> up n (fun i z => upd z i (c i)) z i = c i.
Proof.
  revert i. apply (@up_inv (mem K) (fun n z => forall i, (i < n)%nat -> z i = c i)); [intros; lia|].
  intros i z1 Hi A i' Hi'. destruct (Nat.eq_dec i' i) as [->|N]; [apply upd_at|]. rewrite upd_off by exact N. apply A. lia.
Qed.
End Moves.

Section Program.
Variables (T0 : mem reals) (chunks : list nat) (last : nat) (x1 : nat -> R) (p : prog reals) (s1 : rec reals).
Variables (nmm : bool) (ps : nat -> R) (g : nat -> rmem) (gc : nat -> rrows).
Let t := finish last s1.
Let F := computed T0 chunks p ps.

(* on the curve the program takes the branches it took when it was recorded *)
Definition same_branches_on (X : R -> nat -> R) : Prop := locally 0 (fun s => exists q,
  @wellbehaved reals ps (X s) p (pstart T0 chunks) /\
  @plain reals ps (X s) p (pstart T0 chunks) = Some q /\ sd s1 = pd q).

Variables (n : nat) (tau : R) (X : R -> nat -> R).
Hypothesis Rd : recorded T0 chunks last x1 p s1 ps.
Hypothesis Di : si s1 = n.
Hypothesis Dd : length (sy s1) = n.
Hypothesis So : solves n tau F X.
Hypothesis Sb : same_branches_on X.
Hypothesis Sm : forall j, smooth_run ps (X 0) t 0 (g j).

Lemma square_n : square nmm t n = true.
Proof.
  destruct Rd as (_ & _ & Nv & _ & _ & Rn).
  destruct (@C40_recording reals nmm T0 chunks last ps x1 p s1 Nv Rn) as (Ci & Cd & _ & _ & _).
  unfold square. fold t in Ci, Cd. rewrite Ci, Cd, Di, Dd, Nat.eqb_refl. reflexivity.
Qed.
Lemma zos_at j : exists m, @zos_forward reals ps (X 0) (g j) t = Done m /\ (0 <= frc m)%Z /\ forall i, F (X 0) i = nth i (fy m) 0.
Proof.
  pose proof (locally_singleton _ _ Sb) as (q & A & B & C). destruct Rd as (_ & _ & _ & _ & _ & Rn).
  destruct (@C12_replay_completes reals reals_laws T0 chunks last ps x1 (X 0) p s1 q (g j) Rn A B C) as (m & Z & N & Y).
  exists m. split; [exact Z|]. split; [exact N|]. intros i. unfold F, computed. rewrite B, Y. reflexivity.
Qed.
Lemma hos_at j xc st : (0 < j)%nat -> (forall i, tay j (fun s => X s i) 0 (joined (X 0 i) (xc i))) ->
  @hos_forward reals j ps (X 0) xc (g j) (gc j) t = Some st ->
  (0 <= frc (hF st))%Z /\ forall i, tay j (fun s => F (X s) i) 0 (joined (F (X 0) i) (nth i (hY st) (fun _ => 0))).
Proof.
  intros Hj HX Hf. destruct (zos_at j) as (m & Z & N & Y). destruct Rd as (W & Fp & _ & _ & _ & Rn).
  assert (HX' : forall i, taylor j (fun s => X s i) 0 (joined (X 0 i) (xc i))) by (intros i; apply tay_taylor, HX).
  destruct (@C21_taylor T0 chunks last ps x1 p s1 j ps 0 X xc (g j) (gc j) m st W Fp Rn Hj HX' (Sm j) Z N Hf) as (E & _ & _).
  split; [now rewrite E|]. intros i.
  pose proof (locally_singleton _ _ Sb) as (q0 & A0 & B0 & _).
  set (q := fun s => match @plain reals ps (X s) p (pstart T0 chunks) with Some q => q | None => q0 end).
  assert (L : locally 0 (fun s => @wellbehaved reals ps (X s) p (pstart T0 chunks) /\
                       @plain reals ps (X s) p (pstart T0 chunks) = Some (q s) /\ sd s1 = pd (q s))).
  { eapply filter_imp; [|exact Sb]. cbv beta. intros s (q' & A & B & C). unfold q. rewrite B. auto. }
  pose proof (@C21_program T0 chunks last x1 p s1 j ps 0 X xc (g j) (gc j) st q W Fp Rn Hj HX' (Sm j) L Hf i) as G.
  apply taylor_tay in G. eapply tay_ext_loc; [|eapply tay_coef; [|exact G]].
  - eapply filter_imp; [|exact L]. cbv beta. intros s (_ & B & _). unfold F, computed. now rewrite B.
  - intros k _. unfold F, computed, q. rewrite B0. reflexivity.
Qed.

(* one more coefficient *)
Lemma next_coef j (y : R) (Yi : nat -> R) (c : nat -> R) i v : (i < n)%nat ->
  tay j (fun s => X s i) 0 (joined y Yi) -> tay j (fun s => F (X s) i) 0 c -> v = tau / INR (S j) * c j ->
  forall Yi', (forall k, (k < j)%nat -> Yi' k = Yi k) -> Yi' j = v -> tay (S j) (fun s => X s i) 0 (joined y Yi').
Proof.
  intros Hi HX HF Hv Yi' H1 H2. destruct So as [_ D].
  assert (Q : tay (S j) (fun s => X s i) 0 (fun k => match k with 0%nat => y | S k => tau * c k / INR (S k) end)).
  { eapply (@tay_int j _ _ 0 _ _ (D i Hi)).
    - apply tay_scal. exact HF.
    - cbv beta. exact (@tay_val _ _ _ _ HX).
    - intros k Hk. unfold dcoef. field. apply not_0_INR. lia. }
  eapply tay_coef; [|exact Q]. intros k Hk. destruct k as [|k]; [reflexivity|]. cbn [joined].
  destruct (Nat.eq_dec k j) as [->|N].
  - rewrite H2, Hv. field. apply not_0_INR. lia.
  - rewrite H1 by lia. apply (@tay_le (S j) j) in Q; [|lia]. exact (@tay_unique j _ _ _ _ Q HX (S k) ltac:(lia)).
Qed.

Lemma higher_ok (y : mem reals) : (forall i, (i < n)%nat -> y i = X 0 i) -> forall todo j rc Y Zr rc' Y',
  (0 < j)%nat -> (0 <= rc)%Z -> (forall i, (i < n)%nat -> tay j (fun s => X s i) 0 (joined (y i) (Y i))) ->
  @higher reals nmm ps t g gc n tau todo j rc y Y Zr = Some (rc', Y') ->
  (0 <= rc')%Z /\ (forall i, (i < n)%nat -> tay (j + todo) (fun s => X s i) 0 (Y' i)) /\
  (forall i k, (n <= i)%nat \/ (j + todo < k)%nat -> Y' i k = Y i k).
Proof.
  intros Hy. assert (Ex : @eq (nat -> V reals) (fun i => if (i <? n)%nat then y i else zero reals) (X 0)).
  { apply functional_extensionality. intros i. destruct (Nat.ltb_spec i n); [now apply Hy|]. symmetry. now apply So. }
  induction todo as [|todo IH]; intros j rc Y Zr rc' Y' Hj Hr HY; cbn [higher].
  - intros E. injection E as <- <-. split; [exact Hr|]. rewrite Nat.add_0_r. split.
    + intros i Hi. eapply tay_coef; [|exact (HY i Hi)]. intros k Hk. rewrite put_back_ok.
      destruct (Nat.ltb_spec i n); [|lia]. destruct (Nat.leb_spec k j); [|lia]. destruct k; reflexivity.
    + intros i k H. rewrite put_back_ok. destruct (Nat.ltb_spec i n), (Nat.leb_spec k j); try lia; reflexivity.
  - rewrite square_n. cbn [negb].
    rewrite Ex.
    destruct (@hos_forward reals j ps (X 0) (@view reals n Y) (g j) (gc j) t) as [st|] eqn:Hf; [|discriminate].
    assert (HX : forall i, tay j (fun s => X s i) 0 (joined (X 0 i) (@view reals n Y i))).
    { intros i. unfold view. destruct (Nat.ltb_spec i n) as [Hi|Hi].
      - rewrite <- (Hy i Hi). exact (HY i Hi).
      - eapply tay_ext; [|eapply tay_coef; [|apply (tay_const j 0 0)]].
        + intros s. symmetry. now apply So.
        + intros [|k] _; cbn [joined]; [symmetry; now apply So|reflexivity]. }
    destruct (@hos_at j (@view reals n Y) st Hj HX Hf) as [Nr Ht].
    assert (Nr' : (0 <= OdeModel.mindec rc (frc (hF st)))%Z) by (unfold OdeModel.mindec; destruct (Z.ltb_spec (frc (hF st)) rc); lia).
    destruct (Z.ltb_spec (OdeModel.mindec rc (frc (hF st))) 0); [lia|].
    intros E. apply IH in E; [|lia|exact Nr'|].
    + destruct E as (E1 & E2 & E3). split; [exact E1|]. replace (j + S todo)%nat with (S j + todo)%nat by lia. split; [exact E2|].
      intros i k H1. rewrite E3 by lia. rewrite set_col by reflexivity. destruct (Nat.ltb_spec i n), (Nat.eqb_spec k j); try lia; reflexivity.
    + intros i Hi. eapply (@next_coef j (y i) (Y i) _ i _ Hi (HY i Hi) (Ht i) eq_refl).
      * intros k Hk. rewrite set_col by reflexivity. destruct (Nat.eqb_spec k j); [lia|]. now rewrite andb_false_r.
      * rewrite set_col by reflexivity. destruct (Nat.ltb_spec i n); [|lia]. rewrite Nat.eqb_refl. cbn [andb].
        rewrite set_block by lia. destruct j as [|j']; [lia|]. cbn [joined mul dvd ofnat reals]. replace (S j' - 1)%nat with j' by lia. reflexivity.
Qed.

Theorem C45_forode dol deg z0 Z0 (Y : rrows) rc Y' : (dol <= deg)%nat ->
  (forall i, (i < n)%nat -> taylor dol (fun s => X s i) 0 (Y i)) ->
  @forodec reals nmm ps t g gc n tau dol deg z0 Z0 Y = Some (rc, Y') ->
  (0 <= rc)%Z /\ (forall i, (i < n)%nat -> taylor deg (fun s => X s i) 0 (Y' i)) /\
  (forall i k, (n <= i)%nat \/ (deg < k)%nat -> Y' i k = Y i k).
Proof.
  intros Hd HY. unfold forodec. pose proof (@take_off_ok reals n deg Y) as TO.
  destruct (@take_off reals n deg Y) as [y Y1]. destruct TO as [Hy HY1].
  assert (Hx : forall i, (i < n)%nat -> y i = X 0 i).
  { intros i Hi. rewrite Hy by exact Hi. symmetry. exact (@tay_val _ _ _ _ (taylor_tay (HY i Hi))). }
  assert (HT : forall i, (i < n)%nat -> tay dol (fun s => X s i) 0 (joined (y i) (Y1 i))).
  { intros i Hi. eapply tay_coef; [|exact (taylor_tay (HY i Hi))]. intros k Hk. destruct k as [|k]; cbn [joined]; [now rewrite Hy|].
    rewrite HY1. destruct (Nat.ltb_spec i n), (Nat.ltb_spec k deg); try lia; reflexivity. }
  assert (Fr : forall i k, (n <= i)%nat \/ (deg <= k)%nat -> Y1 i k = Y i k).
  { intros i k H. rewrite HY1. destruct (Nat.ltb_spec i n), (Nat.ltb_spec k deg); try lia; reflexivity. }
  assert (Ex : (fun i => if (i <? n)%nat then y i else zero reals) = X 0).
  { apply functional_extensionality. intros i. destruct (Nat.ltb_spec i n); [now apply Hx|]. symmetry. now apply So. }
  destruct dol as [|dol].
  - rewrite square_n. cbn [negb]. rewrite Ex. destruct (zos_at 0) as (m & Z & N & V0). rewrite Z.
    assert (Nr : (0 <= OdeModel.mindec 3 (frc m))%Z) by (unfold OdeModel.mindec; destruct (Z.ltb_spec (frc m) 3); lia).
    destruct (Z.ltb_spec (OdeModel.mindec 3 (frc m)) 0); [lia|].
    match goal with |- context [up n ?f Y1] => set (Y2 := up n f Y1) end.
    assert (HY2 : forall i k, Y2 i k = if ((i <? n) && (k =? 0))%nat then tau / 1 * nth i (fy m) 0 else Y1 i k).
    { intros i k. unfold Y2. rewrite set_col by reflexivity. destruct (Nat.ltb_spec i n); [|reflexivity]. destruct (k =? 0)%nat; [|reflexivity]. cbn [andb].
      rewrite set_vec by assumption. reflexivity. }
    destruct (Nat.eqb_spec deg 0) as [->|Nd].
    + intros E. injection E as <- <-. split; [exact Nr|]. split.
      * intros i Hi. apply tay_taylor. split; [|exact Logic.I]. rewrite put_back_ok. destruct (Nat.ltb_spec i n); [|lia]. cbn. symmetry. now apply Hx.
      * intros i k H1. rewrite put_back_ok. rewrite HY2. destruct (Nat.ltb_spec i n), (Nat.leb_spec k 0); try lia; cbn [andb]; try (apply Fr; lia).
        destruct (Nat.eqb_spec k 0); [lia|]. apply Fr; lia.
    + intros E. apply higher_ok in E; auto; try lia.
      * destruct E as (E1 & E2 & E3). split; [exact E1|]. replace (1 + (deg - 1))%nat with deg in * by lia. split.
        -- intros i Hi. now apply tay_taylor, E2.
        -- intros i k H1. rewrite E3 by exact H1. rewrite HY2. destruct (Nat.ltb_spec i n), (Nat.eqb_spec k 0); try lia; cbn [andb]; apply Fr; lia.
      * intros i Hi. eapply (@next_coef 0 (y i) (Y1 i) (fun _ => F (X 0) i) i _ Hi (HT i Hi)).
        -- split; [reflexivity|exact Logic.I].
        -- reflexivity.
        -- intros; lia.
        -- rewrite HY2. destruct (Nat.ltb_spec i n); [|lia]. cbn [Nat.eqb andb INR]. rewrite V0. reflexivity.
  - destruct (Nat.leb_spec deg (S dol)) as [L|L].
    + assert (deg = S dol) by lia. intros E. injection E as <- <-. split; [lia|].
      assert (Eq : forall i k, @put_back reals n deg y Y1 i k = Y i k).
      { intros i k. rewrite put_back_ok, HY1. destruct (Nat.ltb_spec i n), (Nat.leb_spec k deg); cbn [andb]; try reflexivity.
        - destruct k as [|k]; [now apply Hy|]. rewrite HY1. destruct (Nat.ltb_spec i n), (Nat.ltb_spec k deg); try lia; reflexivity.
        - destruct (Nat.ltb_spec k deg); [lia|reflexivity]. }
      split; [|intros; apply Eq]. intros i Hi. subst deg. apply tay_taylor. eapply tay_coef; [|exact (taylor_tay (HY i Hi))]. intros k _. symmetry. apply Eq.
    + intros E. apply higher_ok in E; auto; try lia.
      destruct E as (E1 & E2 & E3). split; [exact E1|]. replace (S dol + (deg - S dol))%nat with deg in * by lia. split.
      * intros i Hi. now apply tay_taylor, E2.
      * intros i k H1. rewrite E3 by exact H1. apply Fr; lia.
Qed.

(* it does return, when the trace has no cbrt *)
Theorem C45_completes bs dol deg z0 Z0 (Y : rrows) : t = map (@Plain reals) bs -> (forall k, nofail k bs) ->
  (forall i, (i < n)%nat -> Y i 0%nat = X 0 i) -> 
  exists rc Y', @forodec reals nmm ps t g gc n tau dol deg z0 Z0 Y = Some (rc, Y').
Proof.
  intros Et Nf HY. unfold forodec. pose proof (@take_off_ok reals n deg Y) as TO.
  destruct (@take_off reals n deg Y) as [y Y1]. destruct TO as [Hy _].
  assert (Ex : (fun i => if (i <? n)%nat then y i else zero reals) = X 0).
  { apply functional_extensionality. intros i. destruct (Nat.ltb_spec i n); [rewrite Hy by assumption; now apply HY|]. symmetry. now apply So. }
  assert (Hh : forall todo j rc Y Zr, exists rc' Y', @higher reals nmm ps t g gc n tau todo j rc y Y Zr = Some (rc', Y')).
  { induction todo as [|todo IH]; intros j rc Y2 Zr; cbn [higher]; [eauto|]. rewrite square_n, Ex. cbn [negb].
    destruct (zos_at j) as (m & Z & N & _).
    destruct (@hos_some j ps (X 0) (@view reals n Y2) bs (g j) (gc j) m (Nf j)) as [st E]; [now rewrite <- Et|exact N|].
    rewrite <- Et in E. rewrite E. match goal with |- context [if ?c then _ else _] => destruct c end; eauto. }
  destruct dol as [|dol].
  - rewrite square_n, Ex. cbn [negb]. destruct (zos_at 0) as (m & Z & N & _). rewrite Z.
    match goal with |- context [if ?c then _ else _] => destruct c end; eauto.
    match goal with |- context [if ?c then _ else _] => destruct c end; eauto.
  - match goal with |- context [if ?c then _ else _] => destruct c end; eauto.
Qed.
End Program.
