(* C57: sparse_jac returns the Jacobian.  Theorems for the user. *)
From Coq Require Import List ZArith Bool Arith Lia Sorted Reals Lra.
From Coquelicot Require Import Coquelicot.
Require Import Verif.AdModel Verif.AdRecord Verif.AdSpec Verif.AdReplay Verif.AdRestore
  Verif.AdTidyCalls Verif.AdPlain Verif.AdPlainRun Verif.AdProps
  Verif.AdReal Verif.AdLin Verif.AdReverse Verif.AdReverseProps Verif.AdDeriv Verif.AdTangent
  Verif.AdDerivProps Verif.SpModel Verif.SpSpec Verif.SpProofs Verif.SpTangent Verif.SpProps
  Verif.VecModel Verif.VecProofs Verif.VecProps Verif.AnfProps Verif.SjModel Verif.SjSpec.
Import ListNotations.
Set Implicit Arguments.
Unset Asymmetric Patterns.
Local Open Scope R_scope.

(* ------------------------------------------------------------------ *)
(* sums with one term                                                   *)

Lemma isum_pick z v j0 n : forall a, (a <= j0 < a + n)%nat ->
  (forall j, (a <= j < a + n)%nat -> j <> j0 -> z j * v j = 0) ->
  isum z v a n = z j0 * v j0.
Proof.
  assert (N0 : forall k a, (forall j, (a <= j < a + k)%nat -> z j * v j = 0) -> isum z v a k = 0).
  { induction k as [|k IH]; intros a H; cbn [isum]; auto.
    rewrite (H a) by lia. rewrite IH; [lra|]. intros j Hj. apply H. lia. }
  induction n as [|n IH]; intros a Ha H; [lia|]. cbn [isum].
  destruct (Nat.eq_dec a j0) as [->|Ne].
  - rewrite N0; [lra|]. intros j Hj. apply H; lia.
  - rewrite (H a) by lia. rewrite IH; [lra|lia|]. intros j Hj. apply H. lia.
Qed.
Lemma nth_shift (y : R) ys a i : (a < i)%nat -> nth (i - S a) ys 0 = nth (i - a) (y :: ys) 0.
Proof. intros H. replace (i - a)%nat with (S (i - S a)) by lia. reflexivity. Qed.
Lemma wsum_pick u i0 : forall ys a, (a <= i0 < a + length ys)%nat ->
  (forall i, (a <= i < a + length ys)%nat -> i <> i0 -> u i * nth (i - a) ys 0 = 0) ->
  wsum u a ys = u i0 * nth (i0 - a) ys 0.
Proof.
  assert (N0 : forall ys a, (forall i, (a <= i < a + length ys)%nat -> u i * nth (i - a) ys 0 = 0) -> wsum u a ys = 0).
  { induction ys as [|y ys IH]; intros a H; cbn [wsum]; auto. cbn [length] in H.
    pose proof (H a ltac:(lia)) as H0. rewrite Nat.sub_diag in H0. cbn [nth] in H0. rewrite H0.
    rewrite IH; [lra|]. intros i Hi. rewrite (@nth_shift y) by lia. apply H. lia. }
  induction ys as [|y ys IH]; intros a Ha H; cbn [length] in *; [lia|]. cbn [wsum].
  destruct (Nat.eq_dec a i0) as [->|Ne].
  - rewrite Nat.sub_diag. cbn [nth]. rewrite N0; [lra|]. intros i Hi.
    rewrite (@nth_shift y) by lia. apply H; lia.
  - pose proof (H a ltac:(lia) Ne) as H0. rewrite Nat.sub_diag in H0. cbn [nth] in H0. rewrite H0.
    rewrite IH; [|lia|].
    + rewrite (@nth_shift y) by lia. lra.
    + intros i Hi Hn. rewrite (@nth_shift y) by lia. apply H; lia.
Qed.

(* ------------------------------------------------------------------ *)
(* the Jacobian of a trace, forward and reverse                         *)

Record jac_of (t : list (op reals)) (ps x : nat -> R) (g : rmem) (ms : fstate reals)
  (m n : nat) (z : nat -> nat -> R) : Prop := {
  jder : forall i j, (i < m)%nat -> (j < n)%nat ->
    is_derive (fun s => nth i (outputs ps (put x j s) g t) 0) (x j) (z i j);
  jfwd : forall v gd td, @fos_forward reals ps x v g gd t = Some td ->
    length (tyd td) = m /\ forall i, (i < m)%nat -> nth i (tyd td) 0 = isum (z i) v 0 n;
  jfwd0 : forall v, exists td, @fos_forward reals ps x v g (fun _ => 0) t = Some td /\ tF td = ms;
  jvec : forall p X gd, exists td, @fov_forward reals p ps x X g gd t = Some td /\ vF td = ms;
  jcol : forall p X gd td, @fov_forward reals p ps x X g gd t = Some td ->
    forall l i, (l < p)%nat -> (i < m)%nat -> nth i (vyd td) (fun _ => 0) l = isum (z i) (fun j => X j l) 0 n;
  jrow : forall p U gT gA gz l j, (l < p)%nat -> (j < n)%nat ->
    rvz (@fov_reverse reals p U n m gT gA gz (fk ms) t) l j =
    wsum (U l) 0 (map (fun i => z i j) (seq 0 m)) }.

Lemma trun_tF ps x v t : forall (s : tstate reals) td, @trun reals ps x v t s = Some td ->
  @zrun reals ps x t (tF s) = Done (tF td).
Proof.
  induction t as [|o t IH]; intros s td H; cbn [trun zrun] in *.
  - now injection H as <-.
  - unfold tstep in H. destruct (@zstep reals ps x o (tF s)) as [f|[f|]];
      [|injection H as <-; reflexivity|discriminate].
    apply IH in H. exact H.
Qed.
Lemma vrun_vF p ps x X t : forall (s : vstate reals) td, @vrun reals p ps x X t s = Some td ->
  @zrun reals ps x t (vF s) = Done (vF td).
Proof.
  induction t as [|o t IH]; intros s td H; cbn [vrun zrun] in *.
  - now injection H as <-.
  - unfold vstep in H. destruct (@zstep reals ps x o (vF s)) as [f|[f|]];
      [|injection H as <-; reflexivity|discriminate].
    apply IH in H. exact H.
Qed.
Lemma vrun_done p ps x X t : forall (s : vstate reals) e, @zrun reals ps x t (vF s) = Done e ->
  exists td, @vrun reals p ps x X t s = Some td.
Proof.
  induction t as [|o t IH]; intros s e H; cbn [vrun zrun] in *; [eauto|].
  unfold vstep. destruct (@zstep reals ps x o (vF s)) as [f|[f|]] eqn:E; [|eauto|discriminate].
  eapply IH. exact H.
Qed.

Lemma nth_col (f : nat -> R) m i : (i < m)%nat -> nth i (map f (seq 0 m)) 0 = f i.
Proof.
  intros H. rewrite (nth_indep _ 0 (f 0%nat)) by (now rewrite map_length, seq_length).
  rewrite map_nth, seq_nth by auto. reflexivity.
Qed.

Lemma jacobian_exists T0 chunks last ps1 x1 q t ps x (g : rmem) ms :
  recorded T0 chunks last ps1 x1 q t ->
  @zos_forward reals ps x g t = Done ms -> (0 <= frc ms)%Z ->
  smooth_run ps x t 0 g ->
  exists z, jac_of t ps x g ms (length (fy ms)) (fi ms) z.
Proof.
  intros (W & Fp & Hl & Ok & Rc) Hz Hc Sm.
  assert (Rn : exists s1, @run reals ps1 x1 q (@start reals T0 chunks) = Some s1 /\ finish last s1 = t).
  { unfold record in Rc. destruct (@run reals ps1 x1 q (@start reals T0 chunks)) as [s1|]; [|discriminate].
    injection Rc as <-. eauto. }
  destruct Rn as (s1 & Rn & Et).
  pose proof (@smooth_regular_run ps x t 0 g Sm) as Rg.
  assert (NS : List.Forall (@no_subscript reals) t) by (rewrite <- Et; eapply fprog_no_subscript; eauto).
  assert (Adj : forall v u gd gT gA gz td, @fos_forward reals ps x v g gd t = Some td ->
     wsum u 0 (tyd td) = isum (rz (@fos_reverse reals u (fi ms) (length (fy ms)) gT gA gz (fk ms) t)) v 0 (fi ms)).
  { intros v u gd gT gA gz td H. eapply C15_adjoint; eauto. }
  assert (E : zexec ps x t (@mkF reals g 0 [] 3%Z []) = inl ms) by now apply zrun_path.
  set (z := fun i => rz (@fos_reverse reals (unitv i) (fi ms) (length (fy ms)) (fun _ => 0) (fun _ => 0) (fun _ => 0) (fk ms) t)).
  exists z.
  assert (Len : forall v gd td, @fos_forward reals ps x v g gd t = Some td -> length (tyd td) = length (fy ms)).
  { intros v gd td H. rewrite <- Et in H, Hz, Sm.
    destruct (@C14_directional_derivative T0 chunks last ps1 x1 q s1 ps 0 (along x v) v g gd ms td) as [L _]; auto.
    - intros i. apply along_der.
    - rewrite along0. exact Sm.
    - rewrite along0. exact Hz.
    - rewrite along0. exact H. }
  assert (Fwd : forall v gd td, @fos_forward reals ps x v g gd t = Some td ->
    length (tyd td) = length (fy ms) /\ forall i, (i < length (fy ms))%nat -> nth i (tyd td) 0 = isum (z i) v 0 (fi ms)).
  { intros v gd td H. split; [eapply Len; eauto|]. intros i Hi.
    unfold z. rewrite <- (Adj v (unitv i) gd _ _ _ td H).
    rewrite (@wsum_unit i) by lia. now rewrite Nat.sub_0_r. }
  assert (F0 : forall v, exists td, @fos_forward reals ps x v g (fun _ => 0) t = Some td /\ tF td = ms).
  { intros v. destruct (@trun_some ps x v t (@mkT reals (@mkF reals g 0 [] 3%Z []) (fun _ => 0) []) ms E) as [td Hf].
    exists td. split; [exact Hf|]. apply trun_tF in Hf. cbn [tF] in Hf. unfold zos_forward in Hz. congruence. }
  split.
  - intros i j Hi Hj.
    pose proof (@C15_gradient T0 chunks last ps1 x1 q s1 ps x g (fun _ => 0) (fun _ => 0) (fun _ => 0) ms j i W Fp Hl Ok Rn) as Q.
    cbv zeta in Q. rewrite Et in Q. exact (Q Hz Hc Sm Hj).
  - exact Fwd.
  - exact F0.
  - intros p X gd. destruct (@vrun_done p ps x X t (@mkV reals (@mkF reals g 0 [] 3%Z []) gd []) ms Hz) as [td Hv].
    exists td. split; [exact Hv|]. apply vrun_vF in Hv. cbn [vF] in Hv. unfold zos_forward in Hz. congruence.
  - intros p X gd td Hv l i Hlp Hi.
    pose proof (@C38_columns reals p ps x X g gd t l Hlp (@smooth_logs ps x t (@mkF reals g 0 [] 3%Z []) Sm)) as Q.
    rewrite Hv in Q. destruct (@fos_forward reals ps x (fun i => X i l) g (fun j => gd j l) t) as [s|] eqn:Hs; [|destruct Q].
    destruct Q as [Q _]. destruct (Fwd _ _ _ Hs) as [_ G]. specialize (G i Hi). rewrite <- Q in G.
    rewrite <- G. symmetry. exact (map_nth (fun row : nat -> R => row l) (vyd td) (fun _ => 0) i).
  - intros p U gT gA gz l j Hlp Hj. rewrite C39_rows by auto.
    destruct (F0 (unitv j)) as (td & Hf & _).
    pose proof (Adj (unitv j) (U l) (fun _ => 0) gT (fun j => gA j l) (gz l) td Hf) as Q.
    rewrite isum_one in Q by auto. rewrite <- Q. f_equal.
    destruct (Fwd _ _ _ Hf) as [L G]. apply nth_ext with (d := 0) (d' := 0).
    + now rewrite map_length, seq_length.
    + intros i Hi. rewrite L in Hi. rewrite G by auto. rewrite isum_one by auto.
      symmetry. exact (@nth_col (fun i => z i j) (length (fy ms)) i Hi).
Qed.

(* ------------------------------------------------------------------ *)
(* the pattern covers the Jacobian                                      *)

Lemma pattern_covers tight t ps x (g : rmem) ms m n z rows :
  jac_of t ps x g ms m n z ->
  @pattern_of reals tight t ps x g = SRows rows ->
  patternable tight (@operations reals ps x g t) [] = true ->
  no_pow_at_zero ps x g t -> (0 <= frc ms)%Z ->
  length rows = m /\
  (forall i j, (i < m)%nat -> (j < n)%nat -> ~ In j (nth i rows []) -> z i j = 0).
Proof.
  intros J P Pa Np Hc.
  assert (Cov : forall v, exists td, @fos_forward reals ps x v g (fun _ => 0) t = Some td /\ tangent_covered rows v (tyd td)).
  { intros v. destruct (jfwd0 J v) as (td & Hf & Ef). exists td. split; [exact Hf|].
    rewrite <- Ef in Hc. destruct tight; cbn [pattern_of] in P.
    - eapply C18_tight_pattern_derivative; eauto.
    - eapply C18_safe_pattern_derivative; eauto. }
  assert (L : length rows = m).
  { destruct (Cov (fun _ => 0)) as (td & Hf & T & _). destruct (jfwd J _ _ Hf) as [Q _]. exact (eq_trans (eq_sym T) Q). }
  split; [exact L|]. intros i j Hi Hj Nin.
  destruct (Cov (unitv j)) as (td & Hf & _ & T). destruct (jfwd J _ _ Hf) as [_ G]. specialize (G i Hi).
  rewrite isum_one in G by auto. rewrite <- G.
  assert (Q : nth_error (tyd td) i = Some 0).
  { apply (T i (nth i rows [])). { apply nth_error_nth'. lia. }
    intros k Hk. unfold unitv. destruct (Nat.eqb_spec k j) as [->|]; auto. contradiction. }
  exact (nth_error_nth (tyd td) i 0 Q).
Qed.

(* ------------------------------------------------------------------ *)
(* recovery                                                             *)

Section Entries.
Variable value : nat -> nat -> R.
Fixpoint entries (i : nat) (rows : list (list nat)) : list (nat * nat * R) :=
  match rows with
  | [] => []
  | r :: rows' => map (fun j => (i, j, value i j)) r ++ entries (S i) rows'
  end.
Lemma recover_entries rows : forall i,
  @recover_rows reals value i (map Some rows) = Some (entries i rows).
Proof. induction rows as [|r rows IH]; intros i; cbn; auto. now rewrite IH. Qed.
Lemma entries_length rows : forall i,
  length (entries i rows) = fold_right (fun r s => (length r + s)%nat) 0%nat rows.
Proof. induction rows as [|r rows IH]; intros i; cbn; auto. now rewrite app_length, map_length, IH. Qed.
Lemma entries_in rows : forall a i j v, In ((i, j), v) (entries a rows) <->
  (a <= i < a + length rows)%nat /\ In j (nth (i - a) rows []) /\ v = value i j.
Proof.
  induction rows as [|r rows IH]; intros a i j v; cbn [entries length].
  - split; [intros []|intros [H _]; lia].
  - rewrite in_app_iff, in_map_iff, IH. split.
    + intros [(k & E & Hk)|(H1 & H2 & H3)].
      * injection E as <- <- <-. rewrite Nat.sub_diag. cbn [nth]. repeat split; auto; lia.
      * split; [lia|]. replace (i - a)%nat with (S (i - S a)) by lia. cbn [nth]. auto.
    + intros (H1 & H2 & H3). destruct (Nat.eq_dec i a) as [->|Ne].
      * left. rewrite Nat.sub_diag in H2. cbn [nth] in H2. exists j. subst v. auto.
      * right. replace (i - a)%nat with (S (i - S a)) in H2 by lia. cbn [nth] in H2. split; [lia|auto].
Qed.
Lemma entries_pos rows a i j : In (i, j) (map fst (entries a rows)) <->
  (a <= i < a + length rows)%nat /\ In j (nth (i - a) rows []).
Proof.
  rewrite in_map_iff. split.
  - intros ([[i' j'] v] & E & H). cbn in E. injection E as -> ->. apply entries_in in H. tauto.
  - intros [H1 H2]. exists ((i, j), value i j). split; auto. apply entries_in. auto.
Qed.
Lemma sorted_app (A : Type) (P : A -> A -> Prop) l : forall l', StronglySorted P l -> StronglySorted P l' ->
  (forall a b, In a l -> In b l' -> P a b) -> StronglySorted P (l ++ l').
Proof.
  induction l as [|a l IH]; intros l' S1 S2 H; cbn; auto.
  inversion_clear S1. constructor.
  - apply IH; auto. intros; apply H; cbn; auto.
  - apply Forall_app. split; auto. apply Forall_forall. intros b Hb. apply H; cbn; auto.
Qed.
Lemma entries_sorted rows : (forall r, In r rows -> StronglySorted lt r) ->
  forall a, StronglySorted before (map fst (entries a rows)).
Proof.
  induction rows as [|r rows IH]; intros H a; cbn [entries map]; [constructor|].
  rewrite map_app. apply sorted_app.
  - assert (Sr : StronglySorted lt r) by (apply H; cbn; auto). clear -Sr.
    rewrite map_map. cbn [fst]. induction Sr as [|j r Sr IHr F]; cbn [map]; constructor; auto.
    apply Forall_forall. intros b Hb. apply in_map_iff in Hb as (k & <- & Hk).
    rewrite Forall_forall in F. right. cbn. auto.
  - apply IH. intros; apply H; cbn; auto.
  - intros p [i j] Hp Hb. rewrite map_map in Hp. apply in_map_iff in Hp as (k & <- & _).
    apply entries_pos in Hb as [Hb _]. left. cbn. lia.
Qed.
End Entries.

(* the state that a successful first call leaves *)
Definition state_of (cp : colpack) (cm : compression) (rows : list (list nat)) (m n : nat) : infos reals :=
  let nnz := fold_right (fun r s => (length r + s)%nat) 0%nat rows in
  match cm with
  | Row => @mkI reals (map Some rows) (Some (@row_seed reals (snd (by_rows cp rows m n)))) (fst (by_rows cp rows m n)) n
             (Some (snd (by_rows cp rows m n))) None nnz
  | Column => @mkI reals (map Some rows) (Some (@col_seed reals (snd (by_cols cp rows m n)))) m (fst (by_cols cp rows m n))
             None (Some (snd (by_cols cp rows m n))) nnz
  end.
Lemma build_state cp cm rows m n st : exists p,
  @build reals cp cm (SRows rows) m n st = Returns (Z.of_nat p) (state_of cp cm rows m n) [].
Proof.
  unfold build, state_of. destruct cm.
  - destruct (by_cols cp rows m n) as [p c]. exists p. reflexivity.
  - destruct (by_rows cp rows m n) as [p c]. exists p. reflexivity.
Qed.

Lemma compute_right cp cm t ps x (g : rmem) ms m n z rows gd gT gA gz out :
  colours_right cp -> jac_of t ps x g ms m n z ->
  @zos_forward reals ps x g t = Done ms -> (0 <= frc ms)%Z ->
  length rows = m -> (forall r, In r rows -> StronglySorted lt r) ->
  (forall r j, In r rows -> In j r -> (j < n)%nat) ->
  (forall i j, (i < m)%nat -> (j < n)%nat -> ~ In j (nth i rows []) -> z i j = 0) ->
  exists es, @compute reals cm t ps x m n g gd gT gA gz (state_of cp cm rows m n) out =
    Returns (frc ms) (state_of cp cm rows m n) es /\
  lists_jacobian (fun x => outputs ps x g t) x m n es.
Proof.
  intros Cr J Hz Hc Hl Hs Hb Cov.
  destruct (Cr rows m n Hl Hb) as [[C1 C2] [D1 D2]].
  assert (Fin : forall value : nat -> nat -> R,
    (forall i j, (i < m)%nat -> In j (nth i rows []) -> value i j = z i j) ->
    lists_jacobian (fun x => outputs ps x g t) x m n (entries value 0 rows)).
  { intros value Hv. split; [now apply entries_sorted|]. split.
    - intros i j v H. apply entries_in in H as (H1 & H2 & ->). rewrite Nat.sub_0_r in H2.
      assert (Hi : (i < m)%nat) by lia.
      assert (Hj : (j < n)%nat) by (eapply Hb; [apply nth_In; rewrite Hl; exact Hi|exact H2]).
      split; [exact Hi|]. split; [exact Hj|]. rewrite Hv by auto. exact (jder J Hi Hj).
    - intros i j Hi Hj Hn. evar_last; [exact (jder J Hi Hj)|]. apply (Cov i j Hi Hj). {
        intros Hin. apply Hn. apply entries_pos. rewrite Nat.sub_0_r. split; [lia|exact Hin]. } }
  assert (Rin : forall i, (i < m)%nat -> In (nth i rows []) rows) by (intros i Hi; apply nth_In; lia).
  unfold compute, state_of. destruct cm; cbn [seed seedRows seedClms jp lcol rcol recover].
  - set (p := fst (by_cols cp rows m n)) in *. set (c := snd (by_cols cp rows m n)) in *.
    destruct (jvec J p (@col_seed reals c) gd) as (td & Hv & Ev).
    rewrite Hv. rewrite recover_entries. rewrite Ev. eexists. split; [reflexivity|]. apply Fin.
    intros i j Hi Hin. pose proof (Hb _ _ (Rin i Hi) Hin) as Hj.
    etransitivity; [exact (@jcol t ps x g ms m n z J _ _ _ _ Hv _ _ (C1 j Hj) Hi)|].
    rewrite (@isum_pick (z i) (fun j' => @col_seed reals c j' (c j)) j n 0%nat).
    + unfold col_seed. rewrite Nat.eqb_refl. cbn. ring.
    + lia.
    + intros k Hk Ne. unfold col_seed. destruct (Nat.eqb_spec (c k) (c j)) as [E|E]; [|cbn; ring].
      rewrite Cov; [ring|exact Hi|lia|]. intros Hk2. apply Ne. eapply C2; eauto.
  - set (p := fst (by_rows cp rows m n)) in *. set (c := snd (by_rows cp rows m n)) in *.
    rewrite Hz. destruct (Z.ltb_spec (frc ms) 0); [lia|]. rewrite recover_entries.
    eexists. split; [reflexivity|]. apply Fin.
    intros i j Hi Hin. pose proof (Hb _ _ (Rin i Hi) Hin) as Hj.
    etransitivity; [exact (@jrow t ps x g ms m n z J p (@row_seed reals c) gT gA gz _ _ (D1 i Hi) Hj)|].
    rewrite (@wsum_pick (@row_seed reals c (c i)) i (map (fun i => z i j) (seq 0 m)) 0%nat).
    + rewrite Nat.sub_0_r, nth_col by auto. unfold row_seed. rewrite Nat.eqb_refl. cbn. ring.
    + rewrite map_length, seq_length. lia.
    + rewrite map_length, seq_length. intros k Hk Ne. rewrite Nat.sub_0_r, nth_col by lia.
      unfold row_seed. destruct (Nat.eqb_spec (c k) (c i)) as [E|E]; [|cbn; ring].
      rewrite Cov; [ring|lia|exact Hj|]. intros Hk2. apply Ne. apply (D2 k i j); auto. lia.
Qed.

Lemma zexec_inputs ps x t : forall (s e : fstate reals), @zexec reals ps x t s = inl e ->
  fi e = (fi s + inputs t)%nat.
Proof.
  induction t as [|o t IH]; intros s e H; cbn [zexec] in H.
  - injection H as <-. unfold inputs. cbn. lia.
  - destruct (@zstep reals ps x o s) as [f|] eqn:E; [|discriminate].
    destruct (@zstep_inl reals ps o x s f E) as (_ & _ & _ & I & _).
    rewrite (@inputs_cons reals (fT s)). rewrite (IH _ _ H), I.
    destruct (is_ind _); lia.
Qed.
Lemma pattern_shape tight t ps x (g : rmem) rows :
  @pattern_of reals tight t ps x g = SRows rows ->
  (forall r, In r rows -> StronglySorted lt r) /\ (forall r j, In r rows -> In j r -> (j < inputs t)%nat).
Proof.
  intros P. assert (Q : forall r, In r rows -> StronglySorted lt r /\ (forall j, In j r -> (j < inputs t)%nat)).
  { intros r Hr. destruct tight; cbn [pattern_of] in P;
      [eapply C18_tight_rows_sorted|eapply C18_rows_sorted]; eauto. }
  split; [intros r Hr; now apply Q|intros r j Hr; now apply Q].
Qed.

(* ------------------------------------------------------------------ *)
(* the first call                                                       *)

(* What the theorems ask of the trace at the point: it was recorded by a program of the
   supported kind, the sweep at x does not change branch, every operation is
   differentiable where it is evaluated, and the guard of C18 holds. *)
Definition sweeps_right (tight : bool) (t : list (op reals)) (ps x : nat -> R) (g : rmem)
  (ms : fstate reals) : Prop :=
  @zos_forward reals ps x g t = Done ms /\ (0 <= frc ms)%Z /\
  smooth_run ps x t 0 g /\ no_pow_at_zero ps x g t /\
  patternable tight (@operations reals ps x g t) [] = true.

(* sparse_jac with repeat = 0, whatever was done before with this tape (also with other
   options): it returns the code of the sweep and the Jacobian at x. *)
Theorem C57_first_call T0 chunks last ps1 x1 q t cp cm tight manual ps x (g : rmem) ms rows
  gd gT gA gz (st : infos reals) out :
  recorded T0 chunks last ps1 x1 q t -> colours_right cp ->
  sweeps_right tight t ps x g ms ->
  @pattern_of reals tight t ps x g = SRows rows ->
  (manual = true -> length out = fold_right (fun r s => (length r + s)%nat) 0%nat rows) ->
  exists st' es,
  @sparse_jac reals cp cm tight manual t ps x (length (fy ms)) (fi ms) true g gd gT gA gz st out
    = Returns (frc ms) st' es /\
  lists_jacobian (fun x => outputs ps x g t) x (length (fy ms)) (fi ms) es.
Proof.
  intros Rec Cr (Hz & Hc & Sm & Np & Pa) P Ml.
  destruct (@jacobian_exists T0 chunks last ps1 x1 q t ps x g ms Rec Hz Hc Sm) as [z J].
  destruct (@pattern_covers tight t ps x g ms _ _ z rows J P Pa Np Hc) as [L Cov].
  destruct (@pattern_shape tight t ps x g rows P) as [S1 S2].
  assert (I : fi ms = inputs t).
  { pose proof (@zrun_path reals ps x t _ _ Hz Hc) as E. now apply zexec_inputs in E. }
  rewrite <- I in S2.
  destruct (@compute_right cp cm t ps x g ms (length (fy ms)) (fi ms) z rows gd gT gA gz out Cr J Hz Hc L S1 S2 Cov)
    as (es & C1 & C2).
  exists (state_of cp cm rows (length (fy ms)) (fi ms)), es. split; [|exact C2].
  unfold sparse_jac. rewrite P.
  destruct (@build_state cp cm rows (length (fy ms)) (fi ms) st) as [k ->].
  destruct (Z.ltb_spec (Z.of_nat k) 0); [lia|].
  destruct manual; cbn [andb]; [|exact C1].
  rewrite Ml by auto. replace (nnzIn (state_of cp cm rows (length (fy ms)) (fi ms)))
    with (fold_right (fun r s => (length r + s)%nat) 0%nat rows) by (destruct cm; reflexivity).
  rewrite Nat.eqb_refl. exact C1.
Qed.

(* ------------------------------------------------------------------ *)
(* later calls                                                          *)

(* the states between calls with the safe pattern *)
Lemma reached_states cp cm (t : list (op reals)) m n st : reached cp cm t m n st ->
  seed st = None \/ (exists rows, @indopro_safe reals t = SRows rows /\ st = state_of cp cm rows m n).
Proof.
  assert (Co : forall ps x g gd gT gA gz st out c st' out',
    (seed st = None \/ (exists rows, @indopro_safe reals t = SRows rows /\ st = state_of cp cm rows m n)) ->
    (@compute reals cm t ps x m n g gd gT gA gz st out = Returns c st' out' \/
     @compute reals cm t ps x m n g gd gT gA gz st out = Threw st') -> st' = st).
  { intros ps x g gd gT gA gz s out c st' out' _ H. unfold compute in H.
    destruct (seed s) as [sd|]; [|destruct H; discriminate].
    destruct cm.
    - destruct (fov_forward _ _ _ _ _ _ _) as [v|]; [|destruct H as [H|H]; congruence].
      destruct (recover _ _ _); destruct H as [H|H]; congruence.
    - destruct (zos_forward _ _ _ _) as [ms|]; [|destruct H as [H|H]; congruence].
      destruct (Z.ltb _ _); [destruct H as [H|H]; congruence|].
      destruct (recover _ _ _); destruct H as [H|H]; congruence. }
  assert (Step : forall manual ps x first g gd gT gA gz st out c st' out',
    (seed st = None \/ (exists rows, @indopro_safe reals t = SRows rows /\ st = state_of cp cm rows m n)) ->
    (@sparse_jac reals cp cm false manual t ps x m n first g gd gT gA gz st out = Returns c st' out' \/
     @sparse_jac reals cp cm false manual t ps x m n first g gd gT gA gz st out = Threw st') ->
    (seed st' = None \/ (exists rows, @indopro_safe reals t = SRows rows /\ st' = state_of cp cm rows m n))).
  { intros manual ps x first g gd gT gA gz s out c st' out' Hs H. unfold sparse_jac in H.
    assert (Go : forall s0, (seed s0 = None \/ (exists rows, @indopro_safe reals t = SRows rows /\ s0 = state_of cp cm rows m n)) ->
      ((if manual && negb (length out =? nnzIn s0)%nat then @Returns reals (-3)%Z s0 out else @compute reals cm t ps x m n g gd gT gA gz s0 out) = Returns c st' out' \/
       (if manual && negb (length out =? nnzIn s0)%nat then @Returns reals (-3)%Z s0 out else @compute reals cm t ps x m n g gd gT gA gz s0 out) = Threw st') ->
      (seed st' = None \/ (exists rows, @indopro_safe reals t = SRows rows /\ st' = state_of cp cm rows m n))).
    { intros s0 H0 H1. destruct (andb manual (negb (length out =? nnzIn s0)%nat)).
      - destruct H1 as [H1|H1]; [|congruence]. assert (s0 = st') as <- by congruence. exact H0.
      - rewrite (Co _ _ _ _ _ _ _ _ _ _ _ _ H0 H1). exact H0. }
    destruct first.
    - cbn [pattern_of] in H. destruct (@indopro_safe reals t) as [rows|a|] eqn:P.
      + destruct (@build_state cp cm rows m n s) as [k Hk]. rewrite Hk in H.
        destruct (Z.ltb_spec (Z.of_nat k) 0); [lia|]. apply (Go (state_of cp cm rows m n)); [|exact H].
        right. exists rows. auto.
      + assert (Sn : seed s = None) by (destruct Hs as [Hs|(rows & E & _)]; [exact Hs|discriminate]).
        cbn [build] in H. destruct (Z.ltb a 0).
        * destruct H as [H|H]; [|discriminate]. injection H as _ <- _. left. exact Sn.
        * refine (Go _ _ H). left. exact Sn.
      + assert (Sn : seed s = None) by (destruct Hs as [Hs|(rows & E & _)]; [exact Hs|discriminate]).
        cbn [build] in H. destruct H as [H|H]; [discriminate|]. injection H as <-. left. exact Sn.
    - destruct (cache_ok s).
      + apply (Go s Hs H).
      + destruct H as [H|H]; [|discriminate]. injection H as _ <- _. exact Hs. }
  induction 1 as [|st0 manual ps x first g gd gT gA gz out c st' out' _ IH H|st0 manual ps x first g gd gT gA gz out st' _ IH H].
  - left. reflexivity.
  - eapply Step; [exact IH|left; exact H].
  - eapply (Step manual ps x first g gd gT gA gz st0 out 0%Z st' []); [exact IH|right; exact H].
Qed.

(* After any sequence of calls with the safe pattern - with any results - a call that
   returns a code >= 0 at a point as above returns the Jacobian at that point, with
   repeat = 0 or not. *)
Theorem C57_any_call T0 chunks last ps1 x1 q t cp cm manual first ps x (g : rmem) ms
  gd gT gA gz (st : infos reals) out rc st' es :
  recorded T0 chunks last ps1 x1 q t -> colours_right cp ->
  reached cp cm t (length (fy ms)) (fi ms) st ->
  sweeps_right false t ps x g ms ->
  @sparse_jac reals cp cm false manual t ps x (length (fy ms)) (fi ms) first g gd gT gA gz st out
    = Returns rc st' es -> (0 <= rc)%Z ->
  rc = frc ms /\ lists_jacobian (fun x => outputs ps x g t) x (length (fy ms)) (fi ms) es.
Proof.
  intros Rec Cr Re (Hz & Hc & Sm & Np & Pa) Call Pos.
  destruct (@jacobian_exists T0 chunks last ps1 x1 q t ps x g ms Rec Hz Hc Sm) as [z J].
  assert (I : fi ms = inputs t).
  { pose proof (@zrun_path reals ps x t _ _ Hz Hc) as E. now apply zexec_inputs in E. }
  assert (Go : forall rows, @indopro_safe reals t = SRows rows ->
    let s0 := state_of cp cm rows (length (fy ms)) (fi ms) in
    (if manual && negb (length out =? nnzIn s0)%nat then @Returns reals (-3)%Z s0 out
     else @compute reals cm t ps x (length (fy ms)) (fi ms) g gd gT gA gz s0 out) = Returns rc st' es ->
    rc = frc ms /\ lists_jacobian (fun x => outputs ps x g t) x (length (fy ms)) (fi ms) es).
  { intros rows P s0 H. destruct (andb manual _); [injection H as <- _ _; lia|].
    destruct (@pattern_covers false t ps x g ms _ _ z rows J P Pa Np Hc) as [L Cov].
    destruct (@pattern_shape false t ps x g rows P) as [S1 S2]. rewrite <- I in S2.
    destruct (@compute_right cp cm t ps x g ms (length (fy ms)) (fi ms) z rows gd gT gA gz out Cr J Hz Hc L S1 S2 Cov)
      as (es' & C1 & C2).
    unfold s0 in H. rewrite C1 in H. injection H as <- _ <-. auto. }
  apply reached_states in Re. unfold sparse_jac in Call. destruct first.
  - cbn [pattern_of] in Call. destruct (@indopro_safe reals t) as [rows|a|] eqn:P.
    + destruct (@build_state cp cm rows (length (fy ms)) (fi ms) st) as [k Hk]. rewrite Hk in Call.
      destruct (Z.ltb_spec (Z.of_nat k) 0); [lia|]. exact (Go rows eq_refl Call).
    + assert (Sn : seed st = None) by (destruct Re as [Hs|(rows & E & _)]; [exact Hs|discriminate]).
      cbn [build] in Call. destruct (Z.ltb_spec a 0); [injection Call as <- _ _; lia|].
      destruct (andb manual _); [injection Call as <- _ _; lia|].
      unfold compute in Call. cbn [seed] in Call. rewrite Sn in Call. discriminate.
    + discriminate.
  - destruct (cache_ok st) eqn:Ca; [|injection Call as <- _ _; lia].
    destruct Re as [Sn|(rows & P & ->)].
    + unfold cache_ok in Ca. rewrite Sn in Ca. discriminate.
    + exact (Go rows P Call).
Qed.

Lemma srun_code (t : list (op reals)) : forall i D rows a, srun t i D rows = SAbort a -> (a < 0)%Z.
Proof.
  induction t as [|o t IH]; intros i D rows a H; cbn [srun] in H; [discriminate|].
  destruct o; try discriminate.
  destruct b; try (eapply IH; exact H). injection H as <-. lia.
Qed.
(* ... and nothing is ever read through a null pointer; a repeated call without a first
   one returns -3. *)
Theorem C57_no_crash cp cm (t : list (op reals)) m n manual first ps x g gd gT gA gz (st : infos reals) out :
  reached cp cm t m n st ->
  @sparse_jac reals cp cm false manual t ps x m n first g gd gT gA gz st out <> @Undefined reals.
Proof.
  intros Re. apply reached_states in Re.
  assert (Go : forall rows, let s0 := state_of cp cm rows m n in
    (if manual && negb (length out =? nnzIn s0)%nat then @Returns reals (-3)%Z s0 out
     else @compute reals cm t ps x m n g gd gT gA gz s0 out) <> @Undefined reals).
  { intros rows s0. destruct (andb manual _); [discriminate|]. unfold s0, compute, state_of.
    destruct cm; cbn [seed seedRows seedClms jp lcol rcol recover].
    - destruct (fov_forward _ _ _ _ _ _ _) as [v|]; [|discriminate].
      rewrite recover_entries. discriminate.
    - destruct (zos_forward _ _ _ _) as [ms|]; [|discriminate].
      destruct (Z.ltb _ _); [discriminate|]. rewrite recover_entries. discriminate. }
  unfold sparse_jac. destruct first.
  - cbn [pattern_of]. destruct (@indopro_safe reals t) as [rows|a|] eqn:P.
    + destruct (@build_state cp cm rows m n st) as [k Hk]. rewrite Hk.
      destruct (Z.ltb_spec (Z.of_nat k) 0); [lia|]. exact (Go rows).
    + cbn [build]. pose proof (@srun_code t 0%nat (dinit) [] a P) as Ab. destruct (Z.ltb_spec a 0); [discriminate|lia].
    + cbn [build]. discriminate.
  - destruct (cache_ok st) eqn:Ca; [|discriminate].
    destruct Re as [Sn|(rows & P & ->)]; [|exact (Go rows)].
    unfold cache_ok in Ca. rewrite Sn in Ca. discriminate.
Qed.

(* After a first call that got as far as the colouring, a repeated call returns the code
   of the sweep and the Jacobian at the new point. *)
Theorem C57_repeated_call T0 chunks last ps1 x1 q t cp cm manual ps x (g : rmem) ms
  gd gT gA gz (st : infos reals) out :
  recorded T0 chunks last ps1 x1 q t -> colours_right cp ->
  reached cp cm t (length (fy ms)) (fi ms) st -> seed st <> None ->
  (0 < fi ms)%nat -> (0 < length (fy ms))%nat ->
  sweeps_right false t ps x g ms -> (manual = true -> length out = nnzIn st) ->
  exists es, @sparse_jac reals cp cm false manual t ps x (length (fy ms)) (fi ms) false g gd gT gA gz st out
    = Returns (frc ms) st es /\
  lists_jacobian (fun x => outputs ps x g t) x (length (fy ms)) (fi ms) es.
Proof.
  intros Rec Cr Re Sn Pn Pm (Hz & Hc & Sm & Np & Pa) Ml.
  destruct (@jacobian_exists T0 chunks last ps1 x1 q t ps x g ms Rec Hz Hc Sm) as [z J].
  assert (I : fi ms = inputs t).
  { pose proof (@zrun_path reals ps x t _ _ Hz Hc) as E. now apply zexec_inputs in E. }
  apply reached_states in Re. destruct Re as [Re|(rows & P & ->)]; [contradiction|].
  destruct (@pattern_covers false t ps x g ms _ _ z rows J P Pa Np Hc) as [L Cov].
  destruct (@pattern_shape false t ps x g rows P) as [S1 S2]. rewrite <- I in S2.
  destruct (@compute_right cp cm t ps x g ms (length (fy ms)) (fi ms) z rows gd gT gA gz out Cr J Hz Hc L S1 S2 Cov)
    as (es' & C1 & C2).
  exists es'. split; [|exact C2]. unfold sparse_jac.
  assert (Ca : cache_ok (state_of cp cm rows (length (fy ms)) (fi ms)) = true).
  { destruct (Cr rows (length (fy ms)) (fi ms) L S2) as [[A1 _] [A2 _]].
    specialize (A1 0%nat Pn). specialize (A2 0%nat Pm).
    unfold cache_ok, state_of. destruct cm; cbn [seed seedRows seedClms];
      repeat match goal with |- context [(?a =? 0)%nat] => destruct (Nat.eqb_spec a 0); [lia|] end; reflexivity. }
  rewrite Ca. destruct manual; cbn [andb]; [|exact C1].
  rewrite Ml by auto. rewrite Nat.eqb_refl. exact C1.
Qed.
Theorem C57_repeat_needs_first (K : Arith) cp cm tight manual (t : list (op K)) ps x m n g gd gT gA gz out :
  @sparse_jac K cp cm tight manual t ps x m n false g gd gT gA gz (fresh K) out = Returns (-3) (fresh K) out.
Proof. reflexivity. Qed.
