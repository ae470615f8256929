(* C30: what abs_normal returns.  Theorems for the user. *)
From Coq Require Import List ZArith Bool Arith Lia Reals Lra FunctionalExtensionality.
From Coquelicot Require Import Coquelicot.
Require Import Verif.AdModel Verif.AdRecord Verif.AdSpec Verif.AdReplay Verif.AdRestore
  Verif.AdReal Verif.AdLin Verif.AdReverse Verif.AdTidy Verif.AdTidyCalls
  Verif.AdPlain Verif.AdPlainRun Verif.AdProps Verif.AdReverseProps Verif.AdDeriv Verif.AdTangent Verif.AdDerivProps
  Verif.AnfModel Verif.AnfSpec Verif.AnfProofs Verif.AnfDeriv.
Import ListNotations.
Set Implicit Arguments.
Unset Asymmetric Patterns.
Local Open Scope R_scope.

(* t is the trace of program p, recorded at x1 with parameters ps1. *)
Definition recorded (T0 : rmem) (chunks : list nat) (last : nat) (ps1 x1 : nat -> R)
  (p : prog reals) (t : list (op reals)) : Prop :=
  @wellbehaved reals ps1 x1 p (@pstart reals T0 chunks) /\ fprog p = true /\
  (total chunks <= S last)%nat /\
  prog_ok (S last) p (fun l => l <? total chunks)%nat (fun _ => false) = true /\
  @record reals T0 chunks last ps1 x1 p = Some t.

Lemma recorded_traced T0 chunks last ps1 x1 p t :
  recorded T0 chunks last ps1 x1 p t -> traced T0 chunks last p t.
Proof.
  intros (A & B & C & D & E). unfold record in E.
  destruct (@run reals ps1 x1 p (@start reals T0 chunks)) as [s1|] eqn:R; [|discriminate]. injection E as <-.
  eapply program_traced; eauto.
Qed.

Lemma nsw_plain ps x bs : forall i T, nsw ps x (map (@Plain reals) bs) i T = num_switches (map (@Plain reals) bs).
Proof.
  induction bs as [|b bs IH]; intros i T; auto. cbn [map nsw resolve]. rewrite IH.
  unfold num_switches. cbn [filter]. now destruct b.
Qed.

Lemma sum_to_S_first : forall n f, sum_to (S n) f = f 0%nat + sum_to n (fun k => f (S k)).
Proof.
  induction n as [|n IH]; intros f; [cbn; ring|].
  change (sum_to (S (S n)) f) with (sum_to (S n) f + f (S n)). rewrite IH.
  change (sum_to (S n) (fun k => f (S k))) with (sum_to n (fun k => f (S k)) + f (S n)). ring.
Qed.
Lemma sum_to_diff n f u v : sum_to n (fun k => f k * (u k - v k)) =
  sum_to n (fun k => f k * u k) - sum_to n (fun k => f k * v k).
Proof. induction n; cbn; rewrite ?IHn; ring. Qed.
Lemma isum_sum z xd n : forall i, isum z xd i n = sum_to n (fun k => z (i + k)%nat * xd (i + k)%nat).
Proof.
  induction n as [|n IH]; intros i; [reflexivity|].
  rewrite sum_to_S_first. cbn [isum]. rewrite IH, Nat.add_0_r. f_equal.
  clear. induction n as [|n IH]; cbn [sum_to]; auto. rewrite IH. now rewrite !Nat.add_succ_r.
Qed.
Lemma isum0_sum z xd n : isum z xd 0 n = sum_to n (fun k => z k * xd k).
Proof. apply isum_sum. Qed.
Lemma sum_to_ext n f h : (forall k, (k < n)%nat -> f k = h k) -> sum_to n f = sum_to n h.
Proof. induction n; intros H; cbn; auto. rewrite IHn, H; auto. Qed.
Lemma sum_to_0 n f : (forall k, (k < n)%nat -> f k = 0) -> sum_to n f = 0.
Proof. induction n; intros H; cbn; auto. rewrite IHn, H; auto. ring. Qed.
Lemma wsum_none ys : forall j, wsum (no_weight reals) j ys = 0.
Proof. induction ys; intros j; cbn [wsum]; auto. rewrite IHys. unfold no_weight. cbn. ring. Qed.

(* the sweep at x, the data of one abs_normal call *)
Section Call.
Variables (t : list (op reals)) (ps x : nat -> R) (m n sw : nat) (g gT : rmem)
  (lost : list R) (gA : nat -> rmem) (gz gw : nat -> nat -> R) (a : @anf reals) (rc : Z) (nmm : bool).
Hypothesis Call : @abs_normal reals nmm t ps x m n sw g gT lost gA gz gw = Some (rc, a).
Variables (fs : fstate reals) (T0 : rmem) (chunks : list nat) (last : nat) (p : prog reals).
Hypothesis Tr : traced T0 chunks last p t.
Hypothesis Zf : @zos_forward reals ps x g t = Done fs.
Hypothesis Zc : (0 <= frc fs)%Z.
Hypothesis Dims : m = length (fy fs) /\ n = fi fs.
Hypothesis Sm : smooth_but_abs ps x t 0 g.
Let w := abs_of (an_z a).

Lemma call_exec : @zexec reals ps x t (@mkF reals g 0 [] 3%Z []) = inl fs.
Proof. now apply zrun_path. Qed.

Lemma call_parts : sw = num_switches t /\ an_y a = fy fs /\ an_z a = psw ps x t 0 g /\
  exists row, (forall i u v, row i u v = @pl_reverse reals u v n m sw gT (gA i) (gz i) (gw i) (fk fs) t) /\
  an_Y a = (fun i => rz (plR (row i (@unit_weight reals i) (no_weight reals)))) /\
  an_J a = (fun i => plw (row i (@unit_weight reals i) (no_weight reals))) /\
  an_Z a = (fun i => rz (plR (row (m + i)%nat (no_weight reals) (@unit_weight reals i)))) /\
  an_L a = (fun i => plw (row (m + i)%nat (no_weight reals) (@unit_weight reals i))).
Proof.
  pose proof Call as C. unfold abs_normal in C.
  destruct (Nat.eqb_spec (num_switches t) sw) as [E|]; [|discriminate].
  destruct nmm; [|discriminate]. cbn [andb] in C. rewrite E in C.
  unfold zos_pl_forward in C. rewrite (plz_exec _ _ _ _ _ call_exec) in C.
  replace (frc fs <? 0)%Z with false in C by (symmetry; apply Z.ltb_ge; lia).
  injection C as <- <-. cbn [an_y an_z an_Y an_J an_Z an_L app fi fT].
  repeat (split; [auto|]). eexists (fun i u v => _). split; [intros; reflexivity|].
  repeat (split; [reflexivity|]). reflexivity.
Qed.

Lemma call_matched : matched ps x w t 0 0 g.
Proof.
  apply psw_matched. intros k Hk. destruct call_parts as (_ & _ & E & _).
  unfold w, abs_of. rewrite E. reflexivity.
Qed.

(* the adjoint identity of one row *)
Lemma call_row u v xd wd D i :
  let r := @pl_reverse reals u v n m sw gT (gA i) (gz i) (gw i) (fk fs) t in
  wsum u 0 (xtouts ps x xd wd t 0 0 g D) + wsum v 0 (xtsw ps x xd wd t 0 0 g D) =
  isum (rz (plR r)) xd 0 n + isum (plw r) wd 0 sw.
Proof.
  cbv zeta. destruct call_parts as (Es & _). destruct Dims as [Em En].
  destruct Tr as (bs & Et & Hh & Fr & Gd). destruct (Gd ps x g) as (st & G1 & G2 & G3).
  pose proof (@zexec_path reals ps x t _ _ call_exec) as P. cbn [fT fi fy fk length] in P.
  assert (Ns : nsw ps x t 0 g = sw).
  { rewrite Et, nsw_plain, <- Et. auto. }
  destruct (@pl_adj_path (S last) ps x xd wd t _ _ u v gT (gA i) (gz i) (gw i) 0 D st P G3
     (smooth_pregular _ _ _ _ _ Sm) G1) as (A & _ & A0 & W).
  cbn [vi vT vy vk] in W. rewrite dot_zero in W by auto. rewrite Nat.sub_0_r, Rplus_0_l, Nat.add_0_l, Ns in W.
  unfold pl_reverse. rewrite Em, En. exact W.
Qed.

Lemma unit_same i : @unit_weight reals i = unitv i.
Proof. reflexivity. Qed.

(* derivatives along any curve through the point *)
Lemma call_curve s0 (X W : R -> nat -> R) xd wd :
  (forall i, is_derive (fun s => X s i) s0 (xd i)) ->
  (forall i, is_derive (fun s => W s i) s0 (wd i)) ->
  X s0 = x -> W s0 = w ->
  (forall i, is_derive (fun s => ext_y ps (X s) (W s) t g i) s0
     (isum (an_Y a i) xd 0 n + isum (an_J a i) wd 0 sw)) /\
  (forall i, is_derive (fun s => ext_z ps (X s) (W s) t g i) s0
     (isum (an_Z a i) xd 0 n + isum (an_L a i) wd 0 sw)).
Proof.
  intros HX HW EX EW.
  destruct call_parts as (Es & Ey & Ez & row & Er & EY & EJ & EZ & EL).
  pose proof call_matched as Mt. pose proof Sm as Sm'. pose proof call_row as Rw.
  destruct Tr as (bs & Et & Hh & Fr & _).
  pose proof (@trace_xgood s0 X W xd wd ps HX HW bs Hh 0%nat 0%nat (fun _ => g)) as G.
  unfold xgood in G. cbv zeta in G. rewrite EX, EW, <- Et in G.
  destruct (G (fun _ => False) (fun _ => 0)) as [G1 G2]; auto.
  { intros l []. }
  unfold ext_y, ext_z. rewrite EY, EJ, EZ, EL. split; intros i; rewrite !Er.
  - evar_last; [apply G1|].
    pose proof (Rw (unitv i) (no_weight reals) xd wd (fun _ => 0) i) as Q. cbv zeta in Q.
    rewrite wsum_none, wsum_unit, Nat.sub_0_r, Rplus_0_r in Q by lia. exact Q.
  - evar_last; [apply G2|].
    pose proof (Rw (no_weight reals) (unitv i) xd wd (fun _ => 0) (m + i)%nat) as Q. cbv zeta in Q.
    rewrite wsum_none, wsum_unit, Nat.sub_0_r, Rplus_0_l in Q by lia. exact Q.
Qed.

Lemma isum_none z k c : isum z (fun _ => 0) k c = 0.
Proof. revert k. induction c; intros k; cbn [isum]; auto. rewrite IHc. ring. Qed.
Lemma isum_one z i c : (i < c)%nat -> isum z (unitv i) 0 c = z i.
Proof.
  intros H. rewrite isum_unit. cbn [Nat.leb andb]. apply Nat.ltb_lt in H.
  change (0 + c)%nat with c. now rewrite H.
Qed.

Lemma call_partials :
  (forall i j, (j < n)%nat -> is_derive (fun s => ext_y ps (setx x j s) w t g i) (x j) (an_Y a i j)) /\
  (forall i k, (k < sw)%nat -> is_derive (fun s => ext_y ps x (setx w k s) t g i) (w k) (an_J a i k)) /\
  (forall i j, (j < n)%nat -> is_derive (fun s => ext_z ps (setx x j s) w t g i) (x j) (an_Z a i j)) /\
  (forall i k, (k < sw)%nat -> is_derive (fun s => ext_z ps x (setx w k s) t g i) (w k) (an_L a i k)).
Proof.
  assert (Cx : forall j, (forall i, is_derive (fun s => ext_y ps (setx x j s) w t g i) (x j)
                            (isum (an_Y a i) (unitv j) 0 n + isum (an_J a i) (fun _ => 0) 0 sw)) /\
                         (forall i, is_derive (fun s => ext_z ps (setx x j s) w t g i) (x j)
                            (isum (an_Z a i) (unitv j) 0 n + isum (an_L a i) (fun _ => 0) 0 sw))).
  { intros j. apply (@call_curve (x j) (setx x j) (fun _ => w)); auto using setx_id.
    - intros k. apply setx_der. - intros k. apply d_const. }
  assert (Cw : forall k, (forall i, is_derive (fun s => ext_y ps x (setx w k s) t g i) (w k)
                            (isum (an_Y a i) (fun _ => 0) 0 n + isum (an_J a i) (unitv k) 0 sw)) /\
                         (forall i, is_derive (fun s => ext_z ps x (setx w k s) t g i) (w k)
                            (isum (an_Z a i) (fun _ => 0) 0 n + isum (an_L a i) (unitv k) 0 sw))).
  { intros k. apply (@call_curve (w k) (fun _ => x) (setx w k)); auto using setx_id.
    - intros j. apply d_const. - intros j. apply setx_der. }
  split; [|split; [|split]]; intros i j Hj.
  - evar_last; [apply (proj1 (Cx j))|]. rewrite isum_none, isum_one by auto. ring.
  - evar_last; [apply (proj1 (Cw j))|]. rewrite isum_none, isum_one by auto. ring.
  - evar_last; [apply (proj2 (Cx j))|]. rewrite isum_none, isum_one by auto. ring.
  - evar_last; [apply (proj2 (Cw j))|]. rewrite isum_none, isum_one by auto. ring.
Qed.

Lemma call_lower i k : (i <= k < sw)%nat -> an_L a i k = 0.
Proof.
  intros H. destruct call_partials as (_ & _ & _ & L).
  pose proof (L i k ltac:(lia)) as D. apply is_derive_unique in D. rewrite <- D.
  apply is_derive_unique.
  apply (is_derive_ext (fun _ => ext_z ps x w t g i)); [|apply d_const].
  intros s. unfold ext_z. apply extended_prefix. intros l Hl. unfold setx.
  destruct (Nat.eqb_spec l k); auto. lia.
Qed.

Lemma call_point : an_y a = fst (extended ps x w t 0 0 g) /\ an_z a = snd (extended ps x w t 0 0 g).
Proof.
  rewrite (matched_extended _ _ _ _ _ _ _ call_matched).
  destruct call_parts as (_ & Ey & Ez & _). rewrite Ey, Ez. split; [|reflexivity].
  rewrite (exec_outs _ _ _ _ call_exec). reflexivity.
Qed.
End Call.

(* ------------------------------------------------------------------ *)
(* The matrices are the partial derivatives of the extended function at the point
   (x, |z(x)|), also where arguments of |.| are zero; y and z are its values there;
   L is strictly lower triangular; the code is 0. *)
Theorem C30_extended_jacobian T0 chunks last ps1 x1 p t
  ps x m n sw (g gT : rmem) lost (gA : nat -> rmem) gz gw rc a fs nmm :
  recorded T0 chunks last ps1 x1 p t ->
  @zos_forward reals ps x g t = Done fs -> (0 <= frc fs)%Z ->
  m = length (fy fs) -> n = fi fs ->
  smooth_but_abs ps x t 0 g ->
  @abs_normal reals nmm t ps x m n sw g gT lost gA gz gw = Some (rc, a) ->
  let w := abs_of (an_z a) in
  rc = 0%Z /\ an_y a = fy fs /\ sw = length (an_z a) /\
  (an_y a, an_z a) = extended ps x w t 0 0 g /\
  (forall i j, (j < n)%nat -> is_derive (fun s => ext_y ps (setx x j s) w t g i) (x j) (an_Y a i j)) /\
  (forall i k, (k < sw)%nat -> is_derive (fun s => ext_y ps x (setx w k s) t g i) (w k) (an_J a i k)) /\
  (forall i j, (j < n)%nat -> is_derive (fun s => ext_z ps (setx x j s) w t g i) (x j) (an_Z a i j)) /\
  (forall i k, (k < sw)%nat -> is_derive (fun s => ext_z ps x (setx w k s) t g i) (w k) (an_L a i k)) /\
  (forall i k, (i <= k < sw)%nat -> an_L a i k = 0).
Proof.
  intros Rec Zf Zc Em En Sm Call w. apply recorded_traced in Rec as Tr.
  assert (Dims : m = length (fy fs) /\ n = fi fs) by auto.
  destruct (@call_parts t ps x m n sw g gT lost gA gz gw a rc nmm Call fs Zf Zc Dims) as (Es & Ey & Ez & _).
  destruct (@call_point t ps x m n sw g gT lost gA gz gw a rc nmm Call fs Zf Zc Dims) as [P1 P2].
  split. { clear - Call. unfold abs_normal in Call. destruct (_ && _)%bool; [|discriminate].
           destruct (zos_pl_forward _ _ _ _) as [f z]. destruct f; now injection Call. }
  split; [exact Ey|]. split.
  { rewrite Ez, psw_length. destruct Tr as (bs & Et & _). rewrite Et, nsw_plain, <- Et. exact Es. }
  split. { rewrite (surjective_pairing (extended ps x w t 0 0 g)). f_equal; assumption. }
  destruct (@call_partials t ps x m n sw g gT lost gA gz gw a rc nmm Call fs T0 chunks last p Tr Zf Zc Dims Sm) as (A & B & C & D).
  repeat (split; [assumption|]). intros i k Hk.
  exact (@call_lower t ps x m n sw g gT lost gA gz gw a rc nmm Call fs T0 chunks last p Tr Zf Zc Dims Sm i k Hk).
Qed.

(* ------------------------------------------------------------------ *)
(* Piecewise linear functions *)

Lemma stock_shift n : forall res (d : list R) (T T' D : rmem), (forall l, T' l = T l + D l) ->
  forall l, @stock reals n res d T' l = @stock reals n res d T l + @tzero reals n res D l.
Proof.
  induction n as [|n IH]; intros res d T T' D H l; cbn [stock tzero]; auto.
  apply IH. intros k. unfold upd. destruct (k =? res)%nat; auto. cbn. ring.
Qed.

Lemma linear_step ps x x' wd i q b (T T' D : rmem) : linear_op b = true ->
  (forall l, T' l = T l + D l) ->
  (forall arg res c, b = AbsVal reals arg res c -> wd q = Rabs (T' arg) - Rabs (T arg)) ->
  forall l, @zval reals ps x' i b T' l =
    @zval reals ps x i b T l + xtval ps x (fun k => x' k - x k) wd i q b T D l.
Proof.
  intros L H W l.
  destruct b; try discriminate L; cbn [zval tval xtval]; auto;
    try (unfold rupd, upd; cbn; destruct (l =? _)%nat; rewrite ?H; ring);
    try (unfold rupd, upd; cbn; change (V reals) with R in *; match goal with |- context [(l =? ?r)%nat] => destruct (Nat.eqb_spec l r) as [->|] end; rewrite ?H; ring).
  - unfold rupd, upd. cbn. rewrite (W _ _ _ eq_refl). destruct (l =? res)%nat; rewrite ?H; ring.
  - now apply stock_shift.
Qed.

Lemma nth_shift (u v w : list R) u' v' w' : length u = length v -> length u = length w ->
  (forall j, nth j u 0 = nth j v 0 + nth j w 0) ->
  (forall j, nth j u' 0 = nth j v' 0 + nth j w' 0) ->
  forall j, nth j (u ++ u') 0 = nth j (v ++ v') 0 + nth j (w ++ w') 0.
Proof.
  intros L1 L2 H1 H2 j. destruct (Nat.lt_ge_cases j (length u)) as [G|G].
  - rewrite !app_nth1 by lia. auto.
  - rewrite !app_nth2 by lia. rewrite <- L1, <- L2. auto.
Qed.

Lemma linear_run ps x x' wd bs : forallb linear_op bs = true -> forall i q (T T' D : rmem),
  let t := map (@Plain reals) bs in
  (forall l, T' l = T l + D l) ->
  (forall k, (k < num_switches t)%nat ->
     wd (q + k)%nat = Rabs (nth k (psw ps x' t i T') 0) - Rabs (nth k (psw ps x t i T) 0)) ->
  let xd := fun k => x' k - x k in
  (forall j, nth j (xvouts ps x' t i T') 0 = nth j (xvouts ps x t i T) 0 + nth j (xtouts ps x xd wd t i q T D) 0) /\
  (forall j, nth j (psw ps x' t i T') 0 = nth j (psw ps x t i T) 0 + nth j (xtsw ps x xd wd t i q T D) 0).
Proof.
  induction bs as [|b bs IH]; intros L i q T T' D t H W xd.
  - cbn. split; intros [|j]; ring.
  - cbn [forallb] in L. apply andb_prop in L as [Lb L].
    subst t. cbn [map psw xvouts xtouts xtsw resolve] in *.
    assert (Hs : forall l, @zval reals ps x' i b T' l =
       @zval reals ps x i b T l + xtval ps x xd wd i q b T D l).
    { apply linear_step; auto. intros arg res c ->. cbn [sw_of app] in W.
      specialize (W 0%nat). rewrite Nat.add_0_r in W. apply W. cbn. lia. }
    destruct (IH L (inc (is_ind b) i) (inc (is_abs b) q) _ _ _ Hs) as [I1 I2].
    { intros k Hk. destruct (is_abs b) eqn:E.
      - destruct b; try discriminate E. cbn [sw_of app inc is_ind] in *.
        specialize (W (S k)). cbn [nth] in W. replace (S q + k)%nat with (q + S k)%nat by lia.
        apply W. unfold num_switches in *. cbn [filter switch_op length]. lia.
      - replace (@sw_of reals b T') with (@nil R) in W by (destruct b; auto; discriminate E).
        replace (@sw_of reals b T) with (@nil R) in W by (destruct b; auto; discriminate E).
        cbn [app inc] in *. apply W. unfold num_switches in *. cbn [filter].
        replace (switch_op (Plain b)) with false by (destruct b; auto; discriminate E). exact Hk. }
    split; apply nth_shift; auto; try (now destruct b).
    + intros j. destruct b; cbn [out_of tout_of]; try (destruct j; cbn; ring).
      destruct j as [|[|j]]; cbn [nth]; auto; ring.
    + intros j. destruct b; cbn [sw_of]; try (destruct j; cbn; ring).
      destruct j as [|[|j]]; cbn [nth]; auto; ring.
Qed.

Lemma linear_smooth ps x bs : forallb linear_op bs = true -> forall i T,
  smooth_but_abs ps x (map (@Plain reals) bs) i T.
Proof.
  induction bs as [|b bs IH]; intros L i T; cbn [map smooth_but_abs]; auto.
  cbn [forallb] in L. apply andb_prop in L as [Lb L]. split; auto. cbn [resolve].
  destruct b; try discriminate Lb; exact I.
Qed.

Lemma minus_abs_sum row z : forall col c,
  @minus_abs reals row z col c = c - sum_to (length z) (fun k => row (col + k)%nat * Rabs (nth k z 0)).
Proof.
  induction z as [|a z IH]; intros col c; cbn [minus_abs length].
  - cbn. change (V reals) with R in *. ring.
  - rewrite IH. rewrite sum_to_S_first. rewrite Nat.add_0_r. cbn [nth]. change (V reals) with R in *.
    cbn [sub mul vabs reals].
    rewrite (@sum_to_ext (length z) (fun k => row (S col + k)%nat * Rabs (nth k z 0))
       (fun k => row (col + S k)%nat * Rabs (nth k z 0))); [ring|].
    intros k _. now rewrite Nat.add_succ_r.
Qed.

(* y(x') and z(x') from the data computed at x, for every x', when the program uses
   nothing but |.| and affine operations; cy, cz are updateCy, updateCz. *)
Theorem C30_piecewise_linear_exact T0 chunks last ps1 x1 p t
  ps x m n sw (g gT : rmem) lost (gA : nat -> rmem) gz gw rc a fs nmm :
  recorded T0 chunks last ps1 x1 p t -> piecewise_linear t = true ->
  @zos_forward reals ps x g t = Done fs -> (0 <= frc fs)%Z ->
  m = length (fy fs) -> n = fi fs ->
  @abs_normal reals nmm t ps x m n sw g gT lost gA gz gw = Some (rc, a) ->
  forall x' g' fs', @zos_forward reals ps x' g' t = Done fs' -> (0 <= frc fs')%Z ->
  exists z', (fy fs', z') = extended ps x' (abs_of z') t 0 0 g' /\ length z' = sw /\
  (forall i, (i < m)%nat -> nth i (fy fs') 0 =
     @updateCy reals a i + sum_to n (fun j => an_Y a i j * (x' j - x j)) +
     sum_to sw (fun k => an_J a i k * Rabs (nth k z' 0))) /\
  (forall i, (i < sw)%nat -> nth i z' 0 =
     @updateCz reals a i + sum_to n (fun j => an_Z a i j * (x' j - x j)) +
     sum_to sw (fun k => an_L a i k * Rabs (nth k z' 0))).
Proof.
  intros Rec Pl Zf Zc Em En Call x' g' fs' Zf' Zc'. apply recorded_traced in Rec as Tr.
  assert (Dims : m = length (fy fs) /\ n = fi fs) by auto.
  pose proof Tr as (bs & Et & _).
  assert (Lb : forallb linear_op bs = true).
  { rewrite Et in Pl. clear - Pl. unfold piecewise_linear in Pl. induction bs; auto.
    cbn [map forallb] in *. apply andb_prop in Pl as [A B]. now rewrite A, IHbs. }
  assert (Sm : smooth_but_abs ps x t 0 g) by (rewrite Et; now apply linear_smooth).
  destruct (@call_parts t ps x m n sw g gT lost gA gz gw a rc nmm Call fs Zf Zc Dims)
    as (Es & Ey & Ez & row & Er & EY & EJ & EZ & EL).
  pose proof (@call_row t ps x m n sw g gT lost gA gz gw a rc nmm Call fs T0 chunks last p Tr Zf Zc Dims Sm) as Rw.
  set (z' := psw ps x' t 0 g'). exists z'.
  assert (Ns : forall x g, length (psw ps x t 0 g) = sw).
  { intros. rewrite psw_length, Et, nsw_plain, <- Et. auto. }
  assert (Ey' : fy fs' = xvouts ps x' t 0 g').
  { rewrite (exec_outs _ _ _ _ (@zrun_path reals ps x' t _ _ Zf' Zc')). reflexivity. }
  assert (Ey0 : fy fs = xvouts ps x t 0 g).
  { rewrite (exec_outs _ _ _ _ (@zrun_path reals ps x t _ _ Zf Zc)). reflexivity. }
  split; [|split; [apply Ns|]].
  { rewrite (matched_extended ps x' (abs_of z') t 0 0 g'); [now rewrite Ey'|].
    apply psw_matched. intros k _. reflexivity. }
  set (wd := fun k => Rabs (nth k z' 0) - Rabs (nth k (an_z a) 0)).
  set (D := fun l => g' l - g l).
  destruct (@linear_run ps x x' wd bs Lb 0 0 g g' D) as [Ly Lz].
  { intros l. unfold D. generalize (g l), (g' l). change (forall u v : R, v = u + (v - u)). intros; ring. }
  { intros k _. cbn [Nat.add]. unfold wd, z'. now rewrite Ez, <- Et. }
  cbv zeta in Ly, Lz. rewrite <- Et in Ly, Lz.
  assert (Sd : forall f, sum_to sw (fun k => f k * wd k) =
    sum_to sw (fun k => f k * Rabs (nth k z' 0)) - sum_to sw (fun k => f k * Rabs (nth k (psw ps x t 0 g) 0))).
  { intros f. unfold wd. rewrite Ez. apply sum_to_diff. }
  unfold updateCy, updateCz. split; intros i Hi; rewrite minus_abs_sum; cbn [Nat.add zero reals].
  - rewrite Ey', Ly, Ey, Ey0, Ez, Ns.
    pose proof (Rw (unitv i) (no_weight reals) (fun k => x' k - x k) wd D i) as Q. cbv zeta in Q.
    rewrite wsum_none, wsum_unit, Nat.sub_0_r, Rplus_0_r, !isum0_sum in Q by lia.
    rewrite Q, EY, EJ, !Er. rewrite Sd. change (unit_weight reals i) with (unitv i). change (V reals) with R in *. ring.
  - unfold z'. rewrite Lz, Ez, Ns. fold z'.
    pose proof (Rw (no_weight reals) (unitv i) (fun k => x' k - x k) wd D (m + i)%nat) as Q. cbv zeta in Q.
    rewrite wsum_none, wsum_unit, Nat.sub_0_r, Rplus_0_l, !isum0_sum in Q by lia.
    rewrite Q, EZ, EL, !Er. rewrite Sd. change (unit_weight reals i) with (unitv i). change (V reals) with R in *. ring.
Qed.
