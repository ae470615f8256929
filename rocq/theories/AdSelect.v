(* C27 (min, max, fabs, condassign), comparisons with a constant or another
   variable, and the witnesses that show where C11, C12, C13, C27 and C32 fail. *)
From Coq Require Import List ZArith Bool Arith Lia Reals.
From Flocq Require Import BinarySingleNaN.
Require Import Verif.AdModel Verif.AdRecord Verif.AdSpec Verif.AdReplay Verif.AdPlain
  Verif.AdPlainProofs Verif.AdPlainRun Verif.Binary64 Verif.AdProps.
Import ListNotations.
Set Implicit Arguments.

(* ------------------------------------------------------------------ *)
(* Specification in doubles.                                            *)

(* r is the smaller / larger of a and b *)
Definition is_min (a b r : b64) : Prop :=
  (r = a \/ r = b) /\ Bleb r a = true /\ Bleb r b = true.
Definition is_max (a b r : b64) : Prop :=
  (r = a \/ r = b) /\ Bleb a r = true /\ Bleb b r = true.
(* a OP c on doubles *)
Definition dcmp (r : relop) (a c : b64) : bool :=
  match r with
  | REq => Beqb a c | RNe => negb (Beqb a c) | RLe => Bleb a c | RGe => Bleb c a
  | RLt => Bltb a c | RGt => Bltb c a
  end.

(* Effect of one function call while tracing (from values T) and of sweeping over
   what it recorded (from any values T' of the variables): the value at location
   r is spec of the values of the operands, in both. *)
Definition both (K : Arith) (cs : list (call K)) (r : nat) (spec : mem K -> V K -> Prop) :=
  forall ps x (s s' : rec K) (m : fstate K),
    rprims ps x (flat_map (@prims K) cs) s = Some s' ->
    exists t m', sops s' = sops s ++ t /\ zexec ps x t m = inl m' /\
      spec (sT s) (sT s' r) /\ spec (fT m) (fT m' r).

Section Calls.
Variable K : Arith.
Variable L : Laws K.

Ltac go := intros ps x s s' m H; cbn in H; injection H as <-;
  eexists; eexists; cbn; (split; [rewrite <- ?app_assoc; reflexivity|split; [reflexivity|]]);
  cbn; unfold upd, vmin; rewrite ?Nat.eqb_refl; cbn.

Lemma both_minT a b : both [CMin K Temp a b] a (fun T v => v = if ltb K (T b) (T a) then T b else T a).
Proof. go. auto. Qed.
Lemma both_minR a b : both [CMinR K a b] b (fun T v => v = if ltb K (T b) (T a) then T b else T a).
Proof. go. auto. Qed.
Lemma both_abs k a : a <> kres k a \/ k = Temp ->
  both [CUn K UAbs k a] (kres k a) (fun T v => v = vabs K (T a)).
Proof.
  intros Hk. destruct k as [r|]; cbn [kres].
  - destruct Hk as [Hk|]; [|discriminate]. cbn in Hk. apply Nat.eqb_neq in Hk.
    go. rewrite Hk. auto.
  - go. auto.
Qed.
Lemma both_cond r c a1 a2 : both [CCond K r c a1 a2] r
  (fun T v => v = if ltb K (zero K) (T c) then T a1 else T a2).
Proof. go. auto. Qed.
Lemma both_cond_s r c a : both [CCondS K r c a] r
  (fun T v => v = if ltb K (zero K) (T c) then T a else T r).
Proof.
  go. split; auto. destruct (ltb K (zero K) (fT m c)); cbn; now rewrite ?Nat.eqb_refl.
Qed.
Lemma both_condeq r c a1 a2 : both [CCondEq K r c a1 a2] r
  (fun T v => v = if leb K (zero K) (T c) then T a1 else T a2).
Proof. go. auto. Qed.
Lemma both_condeq_s r c a : both [CCondEqS K r c a] r
  (fun T v => v = if leb K (zero K) (T c) then T a else T r).
Proof.
  go. split; auto. destruct (leb K (zero K) (fT m c)); cbn; now rewrite ?Nat.eqb_refl.
Qed.
(* fmax(const adouble&, const adouble&) = -fmin(-a, -b): adtb_types.h:959-961;
   -a and -b are new adoubles, fmin(&&,&&) -> fmin(&&,const&), unary minus of
   the result in place. *)
Definition fmax_calls (a b t1 t2 : nat) : list (call K) :=
  [CUn K UNeg (Fresh t1) a; CUn K UNeg (Fresh t2) b; CMin K Temp t1 t2; CUn K UNeg Temp t1].

(* the same for the whole memory, to compose calls *)
Definition both2 (cs : list (call K)) (P : mem K -> mem K -> Prop) :=
  forall ps x (s s' : rec K) (m : fstate K),
    rprims ps x (flat_map (@prims K) cs) s = Some s' ->
    exists t m', sops s' = sops s ++ t /\ zexec ps x t m = inl m' /\
      P (sT s) (sT s') /\ P (fT m) (fT m').
Lemma rprims_app ps x l1 l2 (s : rec K) :
  rprims ps x (l1 ++ l2) s =
  match rprims ps x l1 s with Some s1 => rprims ps x l2 s1 | None => None end.
Proof.
  revert s. induction l1 as [|p l1 IH]; intros s; cbn; auto.
  destruct (rprim ps x p s); auto.
Qed.
Lemma both2_app c1 c2 (P1 P2 : mem K -> mem K -> Prop) : both2 c1 P1 -> both2 c2 P2 ->
  both2 (c1 ++ c2) (fun T T'' => exists T', P1 T T' /\ P2 T' T'').
Proof.
  intros H1 H2 ps x s s' m H. rewrite flat_map_app, rprims_app in H.
  destruct (rprims ps x (flat_map (@prims K) c1) s) as [s1|] eqn:E1; [|discriminate].
  destruct (H1 ps x s s1 m E1) as (t1 & m1 & O1 & Z1 & A1 & B1).
  destruct (H2 ps x s1 s' m1 H) as (t2 & m2 & O2 & Z2 & A2 & B2).
  exists (t1 ++ t2), m2. rewrite zexec_app, Z1. repeat split; eauto.
  rewrite O2, O1, app_assoc. reflexivity.
Qed.
Definition set1 (r : nat) (v : mem K -> V K) (T T' : mem K) : Prop :=
  T' r = v T /\ forall l, l <> r -> T' l = T l.
Lemma both2_neg r a : a <> r -> both2 [CUn K UNeg (Fresh r) a] (set1 r (fun T => neg K (T a))).
Proof.
  intros Hr. apply Nat.eqb_neq in Hr. unfold both2, set1.
  go. rewrite Hr. 
  repeat split; auto; intros l Hl; apply Nat.eqb_neq in Hl; now rewrite Hl.
Qed.
Lemma both2_negT a : both2 [CUn K UNeg Temp a] (set1 a (fun T => neg K (T a))).
Proof.
  unfold both2, set1. go.
  repeat split; auto; intros l Hl; apply Nat.eqb_neq in Hl; now rewrite Hl.
Qed.
Lemma both2_minT a b : both2 [CMin K Temp a b]
  (set1 a (fun T => if ltb K (T b) (T a) then T b else T a)).
Proof.
  unfold both2, set1. go.
  repeat split; auto; intros l Hl; apply Nat.eqb_neq in Hl; now rewrite Hl.
Qed.
Lemma both_max a b t1 t2 : a <> t1 -> b <> t1 -> b <> t2 -> t1 <> t2 ->
  both (fmax_calls a b t1 t2) t1
    (fun T v => v = neg K (if ltb K (neg K (T b)) (neg K (T a)) then neg K (T b) else neg K (T a))).
Proof.
  intros H1 H2 H3 H4.
  pose proof (@both2_app _ _ _ _ (@both2_app _ _ _ _ (@both2_app _ _ _ _
    (@both2_neg t1 a H1) (@both2_neg t2 b H3)) (@both2_minT t1 t2)) (@both2_negT t1)) as B.
  intros ps x s s' m H. destruct (B ps x s s' m H) as (t & m' & O & Z & A1 & A2).
  exists t, m'. repeat split; auto.
  - destruct A1 as (T3 & (T2 & (T1 & [S1 F1] & [S2 F2]) & [S3 F3]) & [S4 F4]).
    rewrite S4, S3, S2, (F2 t1), S1, (F1 b) by auto. reflexivity.
  - destruct A2 as (T3 & (T2 & (T1 & [S1 F1] & [S2 F2]) & [S3 F3]) & [S4 F4]).
    rewrite S4, S3, S2, (F2 t1), S1, (F1 b) by auto. reflexivity.
Qed.
End Calls.

(* ------------------------------------------------------------------ *)
(* C27 for IEEE double                                                  *)

Lemma ble_refl (a : b64) : is_nan a = false -> Bleb a a = true.
Proof.
  destruct a as [[]|[]| |s m e H]; try discriminate; auto. intros _.
  rewrite Bleb_correct by reflexivity. apply Raux.Rle_bool_true. apply Rle_refl.
Qed.
Lemma blt_le (a b : b64) : Bltb a b = true -> Bleb a b = true.
Proof.
  unfold Bltb, Bleb, SpecFloat.SFltb, SpecFloat.SFleb.
  destruct (SpecFloat.SFcompare _ _) as [[]|]; auto; discriminate.
Qed.
Lemma bnlt_le (a b : b64) : is_nan a = false -> is_nan b = false ->
  Bltb b a = false -> Bleb a b = true.
Proof.
  intros Na Nb H.
  pose proof (Bcompare_swap _ _ a b) as S. unfold Bcompare in S.
  unfold Bltb, Bleb, SpecFloat.SFltb, SpecFloat.SFleb in *.
  rewrite S in H. 
  assert (C : Bcompare a b <> None).
  { destruct (is_finite a) eqn:Fa, (is_finite b) eqn:Fb.
    - rewrite Bcompare_correct; auto. discriminate.
    - destruct b as [|[]| |]; try discriminate; destruct a as [| | |[]]; discriminate.
    - destruct a as [|[]| |]; try discriminate; destruct b as [| | |[]]; discriminate.
    - destruct a as [|[]| |], b as [|[]| |]; discriminate. }
  unfold Bcompare in C.
  destruct (SpecFloat.SFcompare _ _) as [[]|]; auto; discriminate || congruence.
Qed.

Lemma min_spec (a b : b64) : is_nan a = false -> is_nan b = false ->
  is_min a b (if Bltb b a then b else a).
Proof.
  intros Na Nb. destruct (Bltb b a) eqn:E; split; auto; split;
    auto using ble_refl, blt_le, bnlt_le.
Qed.

Lemma bneg_compare (a b : b64) : Bltb (bneg b) (bneg a) = Bltb a b.
Proof.
  unfold Bltb, SpecFloat.SFltb, bneg.
  destruct a as [[]|[]| |[] m e H], b as [[]|[]| |[] m' e' H']; cbn; auto;
  rewrite (Z.compare_antisym e' e); destruct (e' ?= e)%Z; cbn; auto;
  rewrite Pos.compare_cont_antisym; cbn; destruct (Pos.compare_cont Eq m m'); reflexivity.
Qed.

(* to exhibit a run and a sweep by computation *)
Lemma witness (K : Arith) (r : option (rec K)) (Z : rec K -> outcome K)
  (P : rec K -> fstate K -> Prop) :
  match r with
  | Some s => match Z s with Done m => P s m | Failed _ => False end
  | None => False
  end -> exists s m, r = Some s /\ Z s = Done m /\ P s m.
Proof.
  destruct r as [s|]; [|tauto]. destruct (Z s) as [m|] eqn:E; [|tauto]. eauto.
Qed.

Section Double.
Variable M : Libm.
Let K := binary64 M.

(* fmin, the overloads with a temporary among the arguments *)
Theorem C27_fmin_tmp_first a b : @both K [CMin K Temp a b] a
  (fun T v => is_nan (T a : b64) = false -> is_nan (T b : b64) = false -> is_min (T a) (T b) v).
Proof.
  intros ps x s s' m H. destruct (@both_minT K a b ps x s s' m H) as (t & m' & E & Z & S1 & S2).
  exists t, m'. split; [exact E|split; [exact Z|split]]; intros Na Nb; rewrite ?S1, ?S2; now apply min_spec.
Qed.
Theorem C27_fmin_tmp_second a b : @both K [CMinR K a b] b
  (fun T v => is_nan (T a : b64) = false -> is_nan (T b : b64) = false -> is_min (T a) (T b) v).
Proof.
  intros ps x s s' m H. destruct (@both_minR K a b ps x s s' m H) as (t & m' & E & Z & S1 & S2).
  exists t, m'. split; [exact E|split; [exact Z|split]]; intros Na Nb; rewrite ?S1, ?S2; now apply min_spec.
Qed.

Lemma max_spec (a b : b64) : is_nan a = false -> is_nan b = false ->
  is_max a b (bneg (if Bltb (bneg b) (bneg a) then bneg b else bneg a)).
Proof.
  intros Na Nb. rewrite bneg_compare.
  destruct (Bltb a b) eqn:E; unfold bneg; rewrite Bopp_involutive; split; auto; split;
    auto using ble_refl, blt_le, bnlt_le.
Qed.
(* fmax of two variables *)
Theorem C27_fmax a b t1 t2 : a <> t1 -> b <> t1 -> b <> t2 -> t1 <> t2 ->
  @both K (fmax_calls K a b t1 t2) t1
  (fun T v => is_nan (T a : b64) = false -> is_nan (T b : b64) = false -> is_max (T a) (T b) v).
Proof.
  intros H1 H2 H3 H4 ps x s s' m H.
  destruct (@both_max K a b t1 t2 H1 H2 H3 H4 ps x s s' m H) as (t & m' & E & Z & S1 & S2).
  exists t, m'. split; [exact E|split; [exact Z|split]]; intros Na Nb; rewrite ?S1, ?S2; now apply max_spec.
Qed.
Theorem C27_fabs k a : a <> kres k a \/ k = Temp ->
  @both K [CUn K UAbs k a] (kres k a) (fun T v => v = @Babs 53 1024 (T a)).
Proof. apply both_abs. Qed.
Theorem C27_condassign r c a1 a2 : @both K [CCond K r c a1 a2] r
  (fun T v => v = if Bltb bz (T c) then T a1 else T a2).
Proof. apply both_cond. Qed.
Theorem C27_condassign_short r c a : @both K [CCondS K r c a] r
  (fun T v => v = if Bltb bz (T c) then T a else T r).
Proof. apply both_cond_s. Qed.
Theorem C27_condeqassign r c a1 a2 : @both K [CCondEq K r c a1 a2] r
  (fun T v => v = if Bleb bz (T c) then T a1 else T a2).
Proof. apply both_condeq. Qed.
Theorem C27_condeqassign_short r c a : @both K [CCondEqS K r c a] r
  (fun T v => v = if Bleb bz (T c) then T a else T r).
Proof. apply both_condeq_s. Qed.

(* the hypothesis of both is met *)
Example C27_nonvacuous ps x (s : rec K) a b :
  exists s', rprims ps x (flat_map (@prims K) [CMin K Temp a b]) s = Some s'.
Proof. eexists. reflexivity. Qed.

(* fmin of two named variables is wrong while tracing: 1 and 2 at locations 5
   and 6 give 5 (adouble.cpp:4707), the sweep gives 1. *)
Definition x12 : nat -> b64 := fun i => if Nat.eqb i 0 then b1 else b2.
Definition fmin_prog : prog K :=
  Do (CInd K 5) (Do (CInd K 6) (Do (CMin K (Fresh 7) 5 6) (Do (CDep K 7) (Ret K)))).
Theorem C27_fmin_named_refuted : forall (ps : nat -> V K) (g : mem K),
  exists (s : rec K) (m : fstate K),
  @run K ps x12 fmin_prog (@start K (fun _ => bz) []) = Some s /\
  @zos_forward K ps x12 g (finish 9 s) = Done m /\
  map (@B2SF 53 1024) (fy m) = [B2SF b1] /\
  map (@B2SF 53 1024) (sy s) = [B2SF (bofnat 5)].
Proof.
  intros ps g.
  apply (@witness K (run ps x12 fmin_prog (@start K (fun _ => bz) []))
           (fun s => zos_forward ps x12 g (finish 9 s))
           (fun s m => map (@B2SF 53 1024) (fy m) = [B2SF b1] /\
                       map (@B2SF 53 1024) (sy s) = [B2SF (bofnat 5)])).
  vm_compute. auto.
Qed.

(* A NaN among the arguments: C's fmin returns the other argument, the library
   returns the NaN (here for a temporary holding NaN and a variable holding 1). *)
Theorem C27_fmin_nan_refuted ps x (s : rec K) :
  sT s 0 = B754_nan -> sT s 1 = b1 ->
  exists s', rprims ps x (prims (CMin K Temp 0 1)) s = Some s' /\ sT s' 0 = B754_nan.
Proof.
  intros H0 H1. eexists. split; [reflexivity|]. cbn. rewrite H0, H1. reflexivity.
Qed.

(* ------------------------------------------------------------------ *)
(* Comparisons with a constant: a OP c is decided on -c + a OP 0.       *)

Lemma dcmp_shift r a c : is_finite a = true -> is_finite c = true ->
  truth K r (bplus (bneg c) a) = dcmp r a c.
Proof.
  intros Fa Fc. pose proof (shift_compare a c Fa Fc) as S. fold bneg in S.
  pose proof (Bcompare_swap 53 1024 (bplus (bneg c) a) bz) as S1.
  pose proof (Bcompare_swap 53 1024 a c) as S2.
  unfold Bcompare in *.
  destruct r; cbn;
    unfold Beqb, Bleb, Bltb, SpecFloat.SFeqb, SpecFloat.SFleb, SpecFloat.SFltb;
    rewrite ?S, ?S1, ?S2, ?S; reflexivity.
Qed.

Theorem C32_compare_constant ps x r a (c : b64) t pt pf (q : pst K) :
  is_finite (pT q a : b64) = true -> is_finite c = true ->
  exists q', @plain K ps x (@IfConst K r a c t pt pf) q =
             plain ps x (if dcmp r (pT q a) c then pt else pf) q' /\
    (forall l, l <> t -> pT q' l = pT q l) /\ py q' = py q /\ pi q' = pi q.
Proof.
  intros Fa Fc. unfold IfConst, eq0. destruct (eqb K c (zero K)) eqn:E0.
  - exists (pcmp r a q). cbn [plain].
    assert (Hc : truth K r (pT q a) = dcmp r (pT q a) c).
    { cbn in E0. assert (c = B754_zero (Bsign c)) as ->.
      { destruct c as [[]|[]| |[] m e H]; try discriminate; reflexivity. }
      destruct (pT q a) as [[]|[]| |[] m e H], (Bsign c), r; reflexivity. }
    rewrite <- Hc. destruct (truth K r (pT q a)); auto.
  - set (q1 := pnext (CCst K KAdd (Fresh t) (neg K c) a)
                 (upd (pT q) t (cst_val K KAdd (neg K c) (pT q a))) q).
    exists (pcmp r t q1). cbn [plain meaning kres].
    fold q1.
    assert (Hc : truth K r (pT q1 t) = dcmp r (pT q a) c).
    { unfold q1. cbn [pnext pT]. rewrite upd_eq. apply dcmp_shift; auto. }
    rewrite Hc. destruct (dcmp r (pT q a) c); (split; [reflexivity|]);
      cbn; (split; [intros l Hl; apply Nat.eqb_neq in Hl; unfold upd; now rewrite Hl|rewrite app_nil_r; auto]).
Qed.

(* Comparison of two variables: a OP b is decided on a - b OP 0. *)
Theorem C32_compare_variables ps x r a b t pt pf (q : pst K) :
  is_finite (pT q a : b64) = true -> is_finite (pT q b : b64) = true ->
  exists q', @plain K ps x (@IfCmp K r a b t pt pf) q =
             plain ps x (if dcmp r (pT q a) (pT q b) then pt else pf) q' /\
    (forall l, l <> t -> pT q' l = pT q l) /\ py q' = py q /\ pi q' = pi q.
Proof.
  intros Fa Fb. unfold IfCmp.
  set (q1 := pnext (CBin K BSub (Fresh t) a b)
               (upd (pT q) t (bin_val K BSub (pT q a) (pT q b))) q).
  exists (pcmp r t q1). cbn [plain meaning kres]. fold q1.
  assert (Hc : truth K r (pT q1 t) = dcmp r (pT q a) (pT q b)).
  { unfold q1. cbn [pnext pT]. rewrite upd_eq. rewrite <- dcmp_shift by auto.
    f_equal. symmetry. apply bnegadd. }
  rewrite Hc. destruct (dcmp r (pT q a) (pT q b)); (split; [reflexivity|]);
    cbn; (split; [intros l Hl; apply Nat.eqb_neq in Hl; unfold upd; now rewrite Hl|rewrite app_nil_r; auto]).
Qed.

(* inf <= inf is true for doubles, but -inf + inf <= 0 is not. *)
Theorem C32_compare_infinite_refuted :
  dcmp RLe (B754_infinity false) (B754_infinity false) = true /\
  truth K RLe (bplus (bneg (B754_infinity false)) (B754_infinity false)) = false.
Proof. split; reflexivity. Qed.

(* ------------------------------------------------------------------ *)
(* Signed zeros: 0 + x is recorded as a copy of x.                      *)
Definition zplus_prog : prog K :=
  Do (CInd K 0) (Do (CCst K KAdd (Fresh 1) bz 0) (Do (CDep K 1) (Ret K))).
Theorem C11_signed_zero_refuted : forall (ps : nat -> V K) (g : mem K),
  exists (s : rec K) (m : fstate K),
  @run K ps (fun _ => B754_zero true) zplus_prog (@start K (fun _ => bz) []) = Some s /\
  @zos_forward K ps (fun _ => B754_zero true) g (finish 9 s) = Done m /\
  sy s = [B754_zero false] /\ fy m = [B754_zero true].
Proof.
  intros ps g.
  apply (@witness K (run ps (fun _ => B754_zero true) zplus_prog (@start K (fun _ => bz) []))
           (fun s => zos_forward ps (fun _ => B754_zero true) g (finish 9 s))
           (fun s m => sy s = [B754_zero false] /\ fy m = [B754_zero true])).
  vm_compute. auto.
Qed.

(* frexp of a temporary changes the value without recording anything: traced
   at x = 2 with frexp(2) = 1/2. *)
Definition frexp_prog (f : b64 -> b64) : prog K :=
  Do (CInd K 0) (Do (CCopy K 0 1) (Do (CFrexp K 1 f) (Do (CDep K 1) (Ret K)))).
Theorem C11_frexp_refuted : forall (ps : nat -> V K) (g : mem K) f, f b2 = bhalf ->
  exists (s : rec K) (m : fstate K),
  @run K ps (fun _ => b2) (frexp_prog f) (@start K (fun _ => bz) []) = Some s /\
  @zos_forward K ps (fun _ => b2) g (finish 9 s) = Done m /\
  sy s = [bhalf] /\ fy m = [b2] /\ bhalf <> b2.
Proof.
  intros ps g f Hf.
  apply (@witness K (run ps (fun _ => b2) (frexp_prog f) (@start K (fun _ => bz) []))
           (fun s => zos_forward ps (fun _ => b2) g (finish 9 s))
           (fun s m => sy s = [bhalf] /\ fy m = [b2] /\ bhalf <> b2)).
  assert (N : bhalf <> b2) by discriminate.
  assert (S : (Some [f b2], true) = (Some [bhalf], true)) by (now rewrite Hf).
  revert N. generalize (bhalf <> b2). intros P HP.
  vm_compute in S |- *. injection S as S. rewrite S. auto.
Qed.

(* NaN: a program that branches on x >= 0 takes the other branch at NaN, the
   sweep does not notice. *)
Definition nan_prog : prog K :=
  Do (CInd K 0) (If RGe 0 (Do (CDep K 0) (Ret K)) (Do (CInc K 0) (Do (CDep K 0) (Ret K)))).
Theorem C13_nan_refuted : forall (ps : nat -> V K) (g : mem K),
  exists (s : rec K) (m : fstate K),
  @run K ps (fun _ => b1) nan_prog (@start K (fun _ => bz) []) = Some s /\
  @zos_forward K ps (fun _ => B754_nan) g (finish 9 s) = Done m /\
  exists q, @plain K ps (fun _ => B754_nan) nan_prog (@pstart K (fun _ => bz) []) = Some q /\
  sd s <> pd q /\ frc m = 3%Z.
Proof.
  intros ps g.
  apply (@witness K (run ps (fun _ => b1) nan_prog (@start K (fun _ => bz) []))
           (fun s => zos_forward ps (fun _ => B754_nan) g (finish 9 s))
           (fun s m => exists q, @plain K ps (fun _ => B754_nan) nan_prog
              (@pstart K (fun _ => bz) []) = Some q /\ sd s <> pd q /\ frc m = 3%Z)).
  assert (Q : exists q, @plain K ps (fun _ => B754_nan) nan_prog
              (@pstart K (fun _ => bz) []) = Some q /\ pd q = [false]).
  { unfold nan_prog. repeat pl_step. }
  destruct Q as (q & Q1 & Q2). 
  cut (match run ps (fun _ => b1) nan_prog (@start K (fun _ => bz) []) with
       | Some s => match zos_forward ps (fun _ => B754_nan) g (finish 9 s) with
           | Done m => sd s = [true] /\ frc m = 3%Z | Failed _ => False end
       | None => False end).
  - destruct (run _ _ _ _) as [s|]; [|tauto].
    destruct (zos_forward _ _ _ _) as [m|]; [|tauto]. intros [H1 H2].
    exists q. repeat split; auto. rewrite H1, Q2. discriminate.
  - vm_compute. auto.
Qed.

(* Return code 3 although a conditional assignment came out differently:
   condassign(r, c, a) traced with c > 0 and swept with c < 0. *)
Definition conds_prog : prog K :=
  Do (CInd K 0) (Do (CConst K 1 b3) (Do (CCondS K 1 0 0) (Do (CDep K 1) (Ret K)))).
Theorem C33_condassign_short_refuted : forall (ps : nat -> V K) (g : mem K),
  exists (s : rec K) (m : fstate K),
  @run K ps (fun _ => b1) conds_prog (@start K (fun _ => bz) []) = Some s /\
  @zos_forward K ps (fun _ => bneg b1) g (finish 9 s) = Done m /\
  sy s = [b1] /\ fy m = [b3] /\ frc m = 3%Z.
Proof.
  intros ps g.
  apply (@witness K (run ps (fun _ => b1) conds_prog (@start K (fun _ => bz) []))
           (fun s => zos_forward ps (fun _ => bneg b1) g (finish 9 s))
           (fun s m => sy s = [b1] /\ fy m = [b3] /\ frc m = 3%Z)).
  vm_compute. auto.
Qed.
End Double.

Print Assumptions C11_double.
Print Assumptions C12_double.
Print Assumptions C13_branch_switch_reported.
Print Assumptions C17_new_parameters.
Print Assumptions C32_tracing_keeps_values.
Print Assumptions C32_tracing_keeps_errors.
Print Assumptions C32_compare_constant.
Print Assumptions C27_fmax.
Print Assumptions C27_fmin_named_refuted.
