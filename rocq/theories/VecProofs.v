(* Every direction of the vector sweeps is a scalar sweep. *)
Require Import List ZArith Bool Arith Lia FunctionalExtensionality.
Require Import Verif.AdModel Verif.VecModel.
Import ListNotations.
Set Implicit Arguments.

Section Proofs.
Variable K : Arith.
Notation val := (V K).
Notation mem := (mem K).
Notation bop := (bop K).
Notation op := (op K).
Notation vmem := (vmem K).

(* the tangents (adjoints) of one direction *)
Definition col (l : nat) (D : vmem) : mem := fun j => D j l.

Definition local (body : nat -> vmem -> vmem) (g : nat -> mem -> mem) : Prop :=
  forall l D, (forall j m, m <> l -> body l D j m = D j m) /\ col l (body l D) = g l (col l D).

Lemma fold_other body g : local body g -> forall ls l D, ~ In l ls ->
  col l (fold_left (fun D l => body l D) ls D) = col l D.
Proof.
  intros L. induction ls as [|a ls IH]; intros l D H; [reflexivity|]. cbn.
  rewrite IH by (intros X; apply H; now right).
  apply functional_extensionality. intros j. apply (L a D). intros ->. apply H. now left.
Qed.
Lemma fold_col body g : local body g -> forall ls l D, NoDup ls -> In l ls ->
  col l (fold_left (fun D l => body l D) ls D) = g l (col l D).
Proof.
  intros L. induction ls as [|a ls IH]; intros l D N H; [destruct H|]. cbn. inversion N; subst.
  destruct H as [->|H].
  - rewrite (@fold_other body g L) by assumption. apply L.
  - rewrite IH by assumption. f_equal. apply functional_extensionality. intros j.
    apply (L a D). intros ->. contradiction.
Qed.
Lemma vfor_col body g p l D : local body g -> l < p -> col l (vfor p body D) = g l (col l D).
Proof. intros L H. apply fold_col; auto; [apply seq_NoDup|]. apply in_seq. lia. Qed.
Lemma vdown_col body g p l D : local body g -> l < p -> col l (vdown p body D) = g l (col l D).
Proof.
  intros L H. apply fold_col; auto; [apply NoDup_rev, seq_NoDup|]. rewrite <- in_rev. apply in_seq. lia.
Qed.

Lemma upd_pt (T T' : mem) i v v' : T = T' -> v = v' -> upd T i v = upd T' i v'.
Proof. intros -> ->. reflexivity. Qed.
Lemma col_vupd l (D : vmem) loc v : col l (vupd D loc l v) = upd (col l D) loc v.
Proof.
  apply functional_extensionality. intros j. unfold col, vupd, upd. now rewrite Nat.eqb_refl, andb_true_r.
Qed.
Lemma vupd_at (D : vmem) loc l v j : vupd D loc l v j l = upd (col l D) loc v j.
Proof. change (col l (vupd D loc l v) j = upd (col l D) loc v j). now rewrite col_vupd. Qed.
Lemma vupd_other (D : vmem) loc l v j m : m <> l -> vupd D loc l v j m = D j m.
Proof. intros H. unfold vupd. apply Nat.eqb_neq in H. now rewrite H, andb_false_r. Qed.

Lemma vset_col loc f h p l (D : vmem) : (forall l D, f l D = h l (col l D)) -> l < p ->
  col l (vset p loc f D) = upd (col l D) loc (h l (col l D)).
Proof.
  intros E H. unfold vset.
  rewrite (@vfor_col _ (fun l D => upd D loc (h l D))); auto.
  intros l' D'. split; [intros; now apply vupd_other|]. rewrite col_vupd, E. reflexivity.
Qed.
Lemma vsetd_col loc f h p l (D : vmem) : (forall l D, f l D = h l (col l D)) -> l < p ->
  col l (vsetd p loc f D) = upd (col l D) loc (h l (col l D)).
Proof.
  intros E H. unfold vsetd.
  rewrite (@vdown_col _ (fun l D => upd D loc (h l D))); auto.
  intros l' D'. split; [intros; now apply vupd_other|]. rewrite col_vupd, E. reflexivity.
Qed.

(* proves [local] for bodies made of vupd *)
Ltac loc :=
  let l := fresh "l" in let D := fresh "D" in
  intros l D; cbv zeta; split;
  [ intros; rewrite ?vupd_other by assumption; reflexivity
  | rewrite ?col_vupd, ?vupd_at, ?col_vupd; reflexivity ].

(* ---------------------------------------------------------------- *)
(* forward                                                            *)

Lemma vtcopy_col p l : l < p -> forall n arg res q D,
  col l (@vtcopy K p n arg res q D) = tcopy n arg res q (col l D).
Proof.
  intros H. induction n; intros; [reflexivity|]. cbn [vtcopy tcopy]. rewrite IHn.
  rewrite (@vset_col _ _ (fun _ D => D (arg + q))) by (auto; reflexivity). reflexivity.
Qed.
Lemma vtdot_col p l : l < p -> forall n a1 a2 res q T D,
  col l (@vtdot K p n a1 a2 res q T D) = tdot n a1 a2 res q T (col l D).
Proof.
  intros H. induction n; intros; [reflexivity|]. cbn [vtdot tdot]. cbv zeta. rewrite IHn.
  rewrite (@vsetd_col _ _ (fun _ D => add K (D res) (add K (mul K (T (a1 + q)) (D (a2 + q)))
     (mul K (D (a1 + q)) (T (a2 + q)))))) by (auto; reflexivity). reflexivity.
Qed.
Lemma vtaxpy_col p l : l < p -> forall n arg a1 a2 res q T D,
  col l (@vtaxpy K p n arg a1 a2 res q T D) = taxpy n arg a1 a2 res q T (col l D).
Proof.
  intros H. induction n; intros; [reflexivity|]. cbn [vtaxpy taxpy]. cbv zeta. rewrite IHn.
  rewrite (@vsetd_col _ _ (fun _ D => add K (add K (mul K (T arg) (D (a1 + q)))
     (mul K (D arg) (T (a1 + q)))) (D (a2 + q)))) by (auto; reflexivity). reflexivity.
Qed.

Lemma tzero_at n : forall res (D : mem) j,
  tzero n res D j = if (res <=? j) && (j <? res + n) then zero K else D j.
Proof.
  induction n as [|n IH]; intros res D j; cbn [tzero].
  - destruct (Nat.leb_spec res j), (Nat.ltb_spec j (res + 0)); cbn; auto; lia.
  - rewrite IH. unfold upd.
    destruct (Nat.leb_spec (S res) j), (Nat.ltb_spec j (S res + n)),
      (Nat.leb_spec res j), (Nat.ltb_spec j (res + S n)), (Nat.eqb_spec j res); cbn; auto; lia.
Qed.
Lemma vzero_col p l : l < p -> forall locs (D : vmem),
  col l (vzero p locs D) = fun j => if existsb (Nat.eqb j) locs then zero K else D j l.
Proof.
  intros H. induction locs as [|a locs IH]; intros D; [reflexivity|]. cbn [vzero fold_left existsb].
  change (col l (vzero p locs (vset p a (fun _ _ => zero K) D)) =
    fun j => if (j =? a) || existsb (Nat.eqb j) locs then zero K else D j l).
  rewrite IH. apply functional_extensionality. intros j.
  change (vset p a (fun _ _ => zero K) D j l) with (col l (vset p a (fun _ _ => zero K) D) j).
  rewrite (@vset_col _ _ (fun _ _ => zero K)) by (auto; reflexivity). unfold upd, col.
  destruct (j =? a), (existsb (Nat.eqb j) locs); reflexivity.
Qed.
Lemma vzero_tzero p l n res locs (D : vmem) : l < p -> (forall j, In j locs <-> res <= j < res + n) ->
  col l (vzero p locs D) = tzero n res (col l D).
Proof.
  intros H E. rewrite vzero_col by assumption. apply functional_extensionality. intros j. rewrite tzero_at.
  assert (X : existsb (Nat.eqb j) locs = ((res <=? j) && (j <? res + n))).
  { apply eq_true_iff_eq. rewrite existsb_exists, andb_true_iff, Nat.leb_le, Nat.ltb_lt. split.
    - intros (a & Ha & Ea). apply Nat.eqb_eq in Ea. subst. now apply E.
    - intros Hj. exists j. split; [now apply E|apply Nat.eqb_refl]. }
  now rewrite X.
Qed.

(* log_op: exact while its argument is not 0 *)
Definition log_fine (b : bop) (T : mem) : Prop :=
  match b with LogOp _ arg _ => eqb K (T arg) (zero K) = false | _ => True end.

Lemma vlog_col p l arg res (T : mem) (D : vmem) : l < p -> eqb K (T arg) (zero K) = false ->
  col l (vlog p arg res T D) = upd (col l D) res (mul K (D arg l) (dvd K (one K) (T arg))).
Proof.
  intros H E. unfold vlog.
  rewrite E. cbn [andb].
  assert (G : forall ls (D : vmem) (c : val),
    snd (fold_left (fun (s : val * vmem) l =>
       let (divs, D) := s in let divs' := divs in
       (divs', vupd D res l (mul K (D arg l) divs'))) ls (c, D))
    = fold_left (fun D l => vupd D res l (mul K (D arg l) c)) ls D).
  { induction ls as [|a ls IH]; intros D' c; [reflexivity|]. cbn [fold_left]. apply IH. }
  rewrite G.
  apply (@vset_col res (fun l D => mul K (D arg l) (dvd K (one K) (T arg)))
     (fun l D => mul K (D arg) (dvd K (one K) (T arg)))); auto.
Qed.

(* the first direction is exact everywhere *)
Lemma vlog_col0 p arg res (T : mem) (D : vmem) : 0 < p ->
  col 0 (vlog p arg res T D) = upd (col 0 D) res (mul K (D arg 0)
    (if eqb K (T arg) (zero K) && lt0 K (D arg 0) then vnan K else dvd K (one K) (T arg))).
Proof.
  intros H. unfold vlog. destruct p as [|p]; [lia|]. cbn [seq fold_left].
  assert (G : forall ls (s : val * vmem), ~ In 0 ls ->
    col 0 (snd (fold_left (fun (s : val * vmem) l =>
       let (divs, D) := s in
       let divs' := if eqb K (T arg) (zero K) && lt0 K (D arg l) then vnan K else divs in
       (divs', vupd D res l (mul K (D arg l) divs'))) ls s)) = col 0 (snd s)).
  { induction ls as [|a ls IH]; intros [dv D'] Hn; [reflexivity|]. cbn [fold_left].
    rewrite IH by (intros X; apply Hn; now right). cbn [snd].
    apply functional_extensionality. intros j. apply vupd_other. intros E. apply Hn. left. now symmetry. }
  rewrite G by (rewrite in_seq; lia). cbn [snd]. apply col_vupd.
Qed.

Lemma fval_col p ps x X i b T (D : vmem) l : l < p -> log_fine b T ->
  col l (fval p ps x X i b T D) = tval ps x (fun i => X i l) i b T (col l D).
Proof.
  intros H L. destruct b;
    first [ reflexivity
    | (* one assignment per direction *)
      unfold fval; cbv zeta; unfold vset, vsetd;
      match goal with |- col l (?F _ _ ?DD) = tval _ _ _ _ ?bb ?TT _ =>
        first
        [ apply (@vfor_col _ (fun l' D' => tval ps x (fun i => X i l') i bb TT D') p l DD); [|exact H]; loc
        | apply (@vdown_col _ (fun l' D' => tval ps x (fun i => X i l') i bb TT D') p l DD); [|exact H]; loc ]
      end
    | idtac ].
  - (* HelpOp *)
    unfold fval. cbv zeta. unfold tval. cbv zeta.
    set (T' := zval ps x i (HelpOp K f a1 a2 res) T).
    rewrite (@vset_col _ _ (fun _ D' => match help_special K f (T' a1) (D' a1) with
       Some r0 => r0 | None => mul K (T' a2) (D' a1) end)) by (auto; reflexivity).
    destruct (help_special K f (T' a1) (col l D a1)); reflexivity.
  - (* LogOp *)
    unfold fval, tval. cbn in L. rewrite vlog_col by assumption. rewrite L. reflexivity.
  - (* PowOp *)
    unfold fval, tval. cbv zeta. set (T' := zval ps x i (PowOp K arg res c) T).
    repeat match goal with |- context [if ?e then _ else _] => destruct e end;
      try reflexivity;
      first [ rewrite (@vset_col _ _ (fun _ _ => vnan K)) by (auto; reflexivity); reflexivity
            | rewrite (@vset_col _ _ (fun _ _ => zero K)) by (auto; reflexivity); reflexivity
            | rewrite (@vset_col _ _ (fun _ _ => vinf K)) by (auto; reflexivity); reflexivity
            | rewrite (@vset_col _ _ (fun _ D' => D' arg)) by (auto; reflexivity); reflexivity
            | rewrite (@vset_col _ _ (fun _ D' => mul K (mul K (mul K (T' res) (D' arg)) c) (dvd K (one K) (T arg))))
                by (auto; reflexivity); reflexivity ].
  - (* CondAssign *)
    unfold fval, tval. cbv zeta. destruct (ltb K (zero K) (T arg)).
    + rewrite (@vset_col _ _ (fun _ D' => D' a1)) by (auto; reflexivity). reflexivity.
    + rewrite (@vset_col _ _ (fun _ D' => D' a2)) by (auto; reflexivity). reflexivity.
  - unfold fval, tval. cbv zeta. destruct (leb K (zero K) (T arg)).
    + rewrite (@vset_col _ _ (fun _ D' => D' a1)) by (auto; reflexivity). reflexivity.
    + rewrite (@vset_col _ _ (fun _ D' => D' a2)) by (auto; reflexivity). reflexivity.
  - unfold fval, tval. cbv zeta. destruct (ltb K (zero K) (T arg)); [|reflexivity].
    rewrite (@vset_col _ _ (fun _ D' => D' a1)) by (auto; reflexivity). reflexivity.
  - unfold fval, tval. cbv zeta. destruct (leb K (zero K) (T arg)); [|reflexivity].
    rewrite (@vset_col _ _ (fun _ D' => D' a1)) by (auto; reflexivity). reflexivity.
  - apply vtcopy_col, H.
  - unfold fval, tval. rewrite vtdot_col by exact H.
    rewrite (@vset_col _ _ (fun _ _ => zero K)) by (auto; reflexivity). reflexivity.
  - apply vtaxpy_col, H.
  - unfold fval, tval. apply vzero_tzero; [exact H|]. intros j. apply in_seq.
Qed.

Definition colstate (l : nat) (s : vstate K) : tstate K :=
  mkT (vF s) (col l (vD s)) (map (fun row => row l) (vyd s)).

(* every log_op executed at a nonzero argument *)
Fixpoint logs_fine (ps x : nat -> val) (t : list op) (f : fstate K) : Prop :=
  match t with
  | [] => True
  | o :: t' => log_fine (resolve (fT f) o) (fT f) /\
      match zstep ps x o f with inl f' => logs_fine ps x t' f' | inr _ => True end
  end.

Lemma vrun_col p ps x X l : l < p -> forall t (s : vstate K), logs_fine ps x t (vF s) ->
  option_map (colstate l) (vrun p ps x X t s) = trun ps x (fun i => X i l) t (colstate l s).
Proof.
  intros H. induction t as [|o t IH]; intros s L; [reflexivity|].
  destruct L as [L1 L2]. cbn [vrun trun]. unfold vstep, tstep. cbn [colstate tF tD tyd].
  destruct (zstep ps x o (vF s)) as [f'|[f'|]]; [|reflexivity|reflexivity].
  rewrite IH by exact L2. unfold colstate at 1. cbn [vF vD vyd].
  rewrite fval_col by assumption. do 2 f_equal. rewrite map_app. f_equal.
  destruct (resolve (fT (vF s)) o); reflexivity.
Qed.

(* the first direction needs no guard *)
Lemma fval_col0 p ps x X i b T (D : vmem) : 0 < p ->
  col 0 (fval p ps x X i b T D) = tval ps x (fun i => X i 0) i b T (col 0 D).
Proof.
  intros H. destruct (match b with LogOp _ _ _ => true | _ => false end) eqn:E.
  - destruct b; try discriminate. unfold fval, tval. now apply vlog_col0.
  - apply fval_col; [exact H|]. destruct b; try discriminate; exact I.
Qed.
Lemma vrun_col0 p ps x X : 0 < p -> forall t (s : vstate K),
  option_map (colstate 0) (vrun p ps x X t s) = trun ps x (fun i => X i 0) t (colstate 0 s).
Proof.
  intros H. induction t as [|o t IH]; intros s; [reflexivity|].
  cbn [vrun trun]. unfold vstep, tstep. cbn [colstate tF tD tyd].
  destruct (zstep ps x o (vF s)) as [f'|[f'|]]; [|reflexivity|reflexivity].
  rewrite IH. unfold colstate at 1. cbn [vF vD vyd].
  rewrite fval_col0 by assumption. do 2 f_equal. rewrite map_app. f_equal.
  destruct (resolve (fT (vF s)) o); reflexivity.
Qed.

(* ---------------------------------------------------------------- *)
(* reverse                                                            *)

Lemma vadj1_col p res arg f l (A : vmem) : l < p -> col l (vadj1 p res arg f A) = adj1 (col l A) res arg f.
Proof. intros H. unfold vadj1. apply (@vfor_col _ (fun _ A => adj1 A res arg f)); [|exact H]. loc. Qed.
Lemma vadjm_col p res arg f l (A : vmem) : l < p ->
  col l (vadjm p res arg f A) = (let a := col l A res in let A1 := upd (col l A) res (zero K) in
     upd A1 arg (sub K (A1 arg) (f a))).
Proof.
  intros H. unfold vadjm. apply (@vfor_col _ (fun _ A => let a := A res in let A1 := upd A res (zero K) in
     upd A1 arg (sub K (A1 arg) (f a)))); [|exact H]. loc.
Qed.
Lemma vmove_col p res arg l (A : vmem) : l < p ->
  col l (vmove p res arg A) = upd (upd (col l A) arg (add K (col l A arg) (col l A res))) res (zero K).
Proof.
  intros H. unfold vmove. apply (@vfor_col _ (fun _ A => upd (upd A arg (add K (A arg) (A res))) res (zero K))); [|exact H].
  loc.
Qed.
Lemma vadjc_col p res arg l (A : vmem) : l < p -> col l (vadjc p res arg A) = adjc (col l A) res arg.
Proof. intros H. unfold vadjc, adjc. destruct (res =? arg); [reflexivity|]. now apply vmove_col. Qed.
Lemma vset0_col p loc l (A : vmem) : l < p -> col l (vset p loc (fun _ _ => zero K) A) = upd (col l A) loc (zero K).
Proof. intros H. now rewrite (@vset_col _ _ (fun _ _ => zero K)) by (auto; reflexivity). Qed.

Definition rcol (l : nat) (s : mem * vmem * list val) : mem * mem * list val :=
  let '(T, A, k) := s in (T, col l A, k).

Lemma rvcopy_col p l : l < p -> forall n arg res q T A k,
  rcol l (@rvcopy K p n arg res q T A k) = rcopy n arg res q T (col l A) k.
Proof.
  intros H. induction n; intros; [reflexivity|]. cbn [rvcopy rcopy]. cbv zeta.
  destruct (restore (res + q) T k) as [T' k']. rewrite IHn, vmove_col by exact H. reflexivity.
Qed.
Lemma rvdot_col p l : l < p -> forall n a1 a2 res q T A,
  col l (@rvdot K p n a1 a2 res q T A) = rdot n a1 a2 res q T (col l A).
Proof.
  intros H. induction n; intros; [reflexivity|]. cbn [rvdot rdot]. cbv zeta. rewrite IHn. f_equal.
  apply (@vfor_col _ (fun _ A => let A1 := upd A (a2 + q) (add K (A (a2 + q)) (mul K (A res) (T (a1 + q)))) in
      upd A1 (a1 + q) (add K (A1 (a1 + q)) (mul K (A1 res) (T (a2 + q)))))); [|exact H]. loc.
Qed.
Lemma rvaxpy_col p l : l < p -> forall n arg a1 a2 res q T A k,
  rcol l (@rvaxpy K p n arg a1 a2 res q T A k) = raxpy n arg a1 a2 res q T (col l A) k.
Proof.
  intros H. induction n; intros; [reflexivity|]. cbn [rvaxpy raxpy]. cbv zeta.
  destruct (restore (res + q) T k) as [T' k']. rewrite IHn. f_equal.
  apply (@vfor_col _ (fun _ A => let A1 := upd A (a2 + q) (add K (A (a2 + q)) (A (res + q))) in
      let A2 := upd A1 (a1 + q) (add K (A1 (a1 + q)) (mul K (A1 (res + q)) (T arg))) in
      upd A2 arg (add K (A2 arg) (mul K (A2 (res + q)) (T (a1 + q)))))); [|exact H]. loc.
Qed.

Lemma rvval_col p b T (A : vmem) k l : l < p -> rcol l (rvval p b T A k) = rval b T (col l A) k.
Proof.
  intros H. unfold rcol.
  destruct b; unfold rvval, rval; cbv zeta; try reflexivity;
    try (match goal with |- context [restore ?r T k] => destruct (restore r T k) as [T' k'] eqn:Er end);
    try reflexivity;
    try (rewrite ?vadj1_col, ?vadjm_col, ?vmove_col, ?vset0_col, ?vadjc_col by exact H; reflexivity).
  - do 2 f_equal. apply (@vset_col _ _ (fun _ A => add K (A arg) (A res))); auto.
  - do 2 f_equal. apply (@vset_col _ _ (fun _ A => sub K (A arg) (A res))); auto.
  - do 2 f_equal. apply (@vset_col _ _ (fun _ A => mul K (A res) c)); auto.
  - do 2 f_equal. apply (@vfor_col _ (fun _ A => let a := A res in let A1 := upd A res (mul K a (T' arg)) in
      upd A1 arg (add K (A1 arg) (mul K a (T' res))))); [|exact H]. loc.
  - do 2 f_equal. apply (@vfor_col _ (fun _ A => let a := A res in let A1 := adj1 A res a1 (fun a => a) in
      upd A1 a2 (add K (A1 a2) a))); [|exact H]. loc.
  - do 2 f_equal. apply (@vfor_col _ (fun _ A => let a := A res in let A1 := adj1 A res a1 (fun a => a) in
      upd A1 a2 (sub K (A1 a2) a))); [|exact H]. loc.
  - do 2 f_equal. apply (@vfor_col _ (fun _ A => let a := A res in let A1 := upd A res (zero K) in
      let A2 := upd A1 a2 (add K (A1 a2) (mul K a (T' a1))) in upd A2 a1 (add K (A2 a1) (mul K a (T' a2)))));
      [|exact H]. loc.
  - do 2 f_equal. set (T' := upd T res _). apply (@vfor_col _ (fun _ A =>
      let A1 := upd A a2 (add K (A a2) (mul K (A res) (T' a1))) in
      upd A1 a1 (add K (A1 a1) (mul K (A1 res) (T' a2))))); [|exact H]. loc.
  - do 2 f_equal. set (T' := upd T res _). apply (@vfor_col _ (fun _ A =>
      let A1 := upd A a2 (sub K (A a2) (mul K (A res) (T' a1))) in
      upd A1 a1 (sub K (A1 a1) (mul K (A1 res) (T' a2))))); [|exact H]. loc.
  - do 2 f_equal. apply (@vfor_col _ (fun _ A => let a := A res in
      let A1 := adj1 A res a1 (fun a => mul K a (dvd K (one K) (T' a2))) in
      upd A1 a2 (add K (A1 a2) (mul K a (mul K (neg K (T res)) (dvd K (one K) (T' a2))))))); [|exact H]. loc.
  - destruct (arg =? res); rewrite vadj1_col by exact H; reflexivity.
  - destruct (restore a2 T' k') as [T2 k2]. rewrite vadj1_col by exact H. reflexivity.
  - destruct (restore a2 T' k') as [T2 k2]. rewrite vadjm_col by exact H. reflexivity.
  - destruct (arg =? res); rewrite vadj1_col by exact H; reflexivity.
  - do 2 f_equal. destruct (ltb K (T' a2) (T' a1)); [now apply vadj1_col|].
    destruct (ltb K (T' a1) (T' a2)); [now apply vadj1_col|].
    apply (@vfor_col _ (fun _ A => let a := A res in
      let A1 := adj1 A res a2 (fun a => dvd K a (two K)) in
      upd A1 a1 (add K (A1 a1) (dvd K a (two K))))); [|exact H]. loc.
  - do 2 f_equal. destruct (ltb K (T' arg) (zero K)); [now apply vadjm_col|].
    destruct (ltb K (zero K) (T' arg)); [now apply vadj1_col|]. now apply vset0_col.
  - destruct (ltb K (zero K) (T' arg)); [|reflexivity]. now rewrite vadjc_col.
  - destruct (leb K (zero K) (T' arg)); [|reflexivity]. now rewrite vadjc_col.
  - exact (rvcopy_col H size arg res 0 T A k).
  - rewrite rvdot_col by exact H. reflexivity.
  - exact (rvaxpy_col H size arg a1 a2 res 0 T A k).
  - do 2 f_equal. apply vzero_tzero; [exact H|]. intros j. rewrite <- in_rev. apply in_seq.
  - destruct (restore_up (S a2 - a1) a1 T k) as [T' k']. do 2 f_equal.
    apply vzero_tzero; [exact H|]. intros j. apply in_seq.
Qed.

Definition colrstate (l : nat) (s : rvstate K) : rstate K :=
  mkR (rvT s) (col l (rvA s)) (rvk s) (rvz s l) (rvi s) (rvd s).

Definition no_subscript (o : op) : Prop := match o with Subscript _ _ _ _ _ => False | _ => True end.

Lemma results_row p l i (f : nat -> val) : l < p -> forall z : nat -> nat -> val,
  fold_left (fun z l => vupd z l i (f l)) (seq 0 p) z l = upd (z l) i (f l).
Proof.
  intros H. assert (G : forall ls (z : nat -> nat -> val), NoDup ls ->
    fold_left (fun z l => vupd z l i (f l)) ls z l = if existsb (Nat.eqb l) ls then upd (z l) i (f l) else z l).
  { induction ls as [|a ls IH]; intros z N; [reflexivity|]. cbn. inversion N; subst. rewrite IH by assumption.
    assert (E : vupd z a i (f a) l = if l =? a then upd (z l) i (f l) else z l).
    { apply functional_extensionality. intros j. unfold vupd, upd.
      destruct (Nat.eqb_spec l a); [subst|reflexivity]. now destruct (j =? i). }
    rewrite E. destruct (Nat.eqb_spec l a) as [->|Hn]; cbn [orb]; [|reflexivity].
    assert (X : existsb (Nat.eqb a) ls = false).
    { apply Bool.not_true_is_false. rewrite existsb_exists. intros (b & Hb & Eb). apply Nat.eqb_eq in Eb. now subst. }
    now rewrite X. }
  intros z. rewrite G by apply seq_NoDup.
  assert (X : existsb (Nat.eqb l) (seq 0 p) = true).
  { apply existsb_exists. exists l. split; [apply in_seq; lia|apply Nat.eqb_refl]. }
  now rewrite X.
Qed.

Lemma rvstep_col p U o (s : rvstate K) l : l < p -> no_subscript o ->
  colrstate l (rvstep p U o s) = rstep (U l) o (colrstate l s).
Proof.
  intros H N. unfold rstep, rvstep. cbn [colrstate rT rA rk rz rii rid].
  assert (E : match o with Subscript _ _ _ _ _ => True | _ => rvstep p U o s =
     let '(T', A', k') := rvval p (resolve (rvT s) o) (rvT s) (rvA s) (rvk s) in
     match resolve (rvT s) o with
     | AssignInd _ res => mkRV T' A' k' (fold_left (fun z l => vupd z l (rvi s - 1) (rvA s res l)) (seq 0 p) (rvz s))
        (rvi s - 1) (rvd s)
     | AssignDep _ res => mkRV T' (vset p res (fun l _ => U l (rvd s - 1)) A') k' (rvz s) (rvi s) (rvd s - 1)
     | _ => mkRV T' A' k' (rvz s) (rvi s) (rvd s)
     end end) by (destruct o; auto; reflexivity).
  fold (rvstep p U o s). set (b := resolve (rvT s) o) in *.
  assert (E' : rvstep p U o s = let '(T', A', k') := rvval p b (rvT s) (rvA s) (rvk s) in
     match b with
     | AssignInd _ res => mkRV T' A' k' (fold_left (fun z l => vupd z l (rvi s - 1) (rvA s res l)) (seq 0 p) (rvz s))
        (rvi s - 1) (rvd s)
     | AssignDep _ res => mkRV T' (vset p res (fun l _ => U l (rvd s - 1)) A') k' (rvz s) (rvi s) (rvd s - 1)
     | _ => mkRV T' A' k' (rvz s) (rvi s) (rvd s)
     end) by (destruct o; try exact E; destruct N).
  rewrite E'. clear E E'.
  pose proof (@rvval_col p b (rvT s) (rvA s) (rvk s) l H) as G.
  destruct (rvval p b (rvT s) (rvA s) (rvk s)) as [[T' A'] k']. cbn [rcol] in G. rewrite <- G.
  destruct b; try reflexivity.
  - unfold colrstate. cbn. f_equal. exact (@results_row p l (rvi s - 1) (fun l => rvA s res l) H (rvz s)).
  - unfold colrstate. cbn. f_equal.
    apply (@vset_col _ _ (fun l _ => U l (rvd s - 1))); auto.
Qed.

Lemma rvrun_col p U l : l < p -> forall t (s : rvstate K), Forall no_subscript t ->
  colrstate l (rvrun p U t s) = rrun (U l) t (colrstate l s).
Proof.
  intros H t s N. unfold rvrun, rrun.
  assert (N' : Forall no_subscript (rev t)) by (apply Forall_rev; exact N).
  revert s. induction N' as [|o t' Ho N' IH]; intros s; [reflexivity|]. cbn [fold_left].
  rewrite IH. f_equal. now apply rvstep_col.
Qed.

(* one weight vector needs no guard *)
Lemma rvstep_one U o (s : rvstate K) : colrstate 0 (rvstep 1 U o s) = rstep (U 0) o (colrstate 0 s).
Proof.
  destruct o; try (apply rvstep_col; [lia|exact I]).
  unfold rvstep, rstep. cbn [resolve colrstate rT rA rk rz rii rid].
  unfold rval. cbn [resolve]. destruct (restore res (rvT s) (rvk s)) as [T' k'].
  unfold colrstate. cbn [rvT rvA rvk rvz rvi rvd]. f_equal.
  unfold vsubscript, vfor. cbn [seq fold_left]. rewrite col_vupd, col_vupd. reflexivity.
Qed.
End Proofs.
