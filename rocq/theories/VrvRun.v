(* C51: hov_wk_forward and hos_ov_reverse, direction by direction. *)
From Coq Require Import List ZArith Bool Arith Lia FunctionalExtensionality.
Require Import Verif.AdModel Verif.HosModel Verif.HosLoops Verif.HovModel Verif.HovProofs Verif.HovProps
  Verif.HrvModel Verif.VrvModel Verif.VrvProofs.
Import ListNotations.
Set Implicit Arguments.
Set Asymmetric Patterns.

Section Any.
Variable K : Arith.
Notation val := (V K).
Notation vmem := (mem K).
Notation rows := (rows K).
Variable eps : val.

(* ------------------------------------------------------------------ *)
(* the forward sweep                                                     *)

Lemma nth_rev_map (A : Type) (f : nat -> A) n i d : i < n -> nth i (rev (map f (seq 0 n))) d = f (n - 1 - i).
Proof.
  intros I. rewrite rev_nth by (rewrite map_length, seq_length; lia). rewrite map_length, seq_length.
  rewrite nth_indep with (d' := f 0) by (rewrite map_length, seq_length; lia).
  rewrite map_nth, seq_nth by lia. f_equal. lia.
Qed.
Lemma stk_push p d l (C D : rows) (T : vmem) loc ws hs : l < p -> same d l C D ->
  @Stk K p (S d) l ws hs -> @Stk K p (S d) l (rev (wtaken p d T C loc) ++ ws) (rev (taken (S d) T D loc) ++ hs).
Proof.
  intros L E H f r R. cbn [wtaken]. unfold wtaken, taken. cbn [seq map]. cbn [rev].
  assert (Em : forall m, map (fun i => match i with 0 => T loc | S j => D loc j end) (seq 1 m) = map (D loc) (seq 0 m)).
  { intros m. rewrite <- seq_shift, map_map. reflexivity. }
  rewrite Em. rewrite <- !app_assoc. 
  assert (Lw : length (rev (map (C loc) (seq 0 (p * d)))) = p * d) by (now rewrite rev_length, map_length, seq_length).
  assert (Lh : length (rev (map (D loc) (seq 0 d))) = d) by (now rewrite rev_length, map_length, seq_length).
  replace (S d - 1) with d by lia.
  destruct f as [|f].
  - cbn [Nat.mul Nat.add]. unfold slot. replace (S d - 1) with d by lia. destruct (Nat.ltb_spec r d).
    + assert (I2 : (p - 1 - l) * d + r < p * d) by nia.
      rewrite app_nth1 by lia. rewrite app_nth1 by lia. rewrite nth_rev_map by lia. rewrite nth_rev_map by lia.
      rewrite <- (E loc (d - 1 - r)) by lia. f_equal. nia.
    + assert (r = d) by lia. subst r. rewrite (app_nth2 (rev (map (D loc) (seq 0 d)))) by (rewrite Lh; lia).
      replace (0 * (1 + p * d) + p * d) with (p * d) by lia.
      rewrite (app_nth2 (rev (map (C loc) (seq 0 (p * d))))) by (rewrite Lw; apply le_n). rewrite Lw, Lh, !Nat.sub_diag. reflexivity.
  - rewrite (app_nth2 (rev (map (D loc) (seq 0 d)))) by (rewrite Lh; nia).
    rewrite (app_nth2 (rev (map (C loc) (seq 0 (p * d))))) by (rewrite Lw; nia). rewrite Lw, Lh.
    specialize (H f r R). replace (S d - 1) with d in H by lia.
    replace (S f * S d + r - d) with (S (f * S d + r)) by nia.
    replace (S f * (1 + p * d) + slot p (S d) l r - p * d) with (S (f * (1 + p * d) + slot p (S d) l r)) by nia.
    cbn [app nth]. exact H.
Qed.
Lemma stk_flat p d l (C D : rows) (T : vmem) ls : l < p -> same d l C D -> forall ws hs,
  @Stk K p (S d) l ws hs ->
  @Stk K p (S d) l (rev (flat_map (wtaken p d T C) ls) ++ ws) (rev (flat_map (taken (S d) T D) ls) ++ hs).
Proof.
  intros L E. induction ls as [|a ls IH]; intros ws hs H; cbn [flat_map]; auto.
  rewrite !rev_app_distr, <- !app_assoc. apply IH. now apply stk_push.
Qed.
Lemma stk_pushes p d l b (C D : rows) (T : vmem) ws hs : l < p -> 0 < d -> same d l C D ->
  @Stk K p (S d) l ws hs ->
  @Stk K p (S d) l (rev (wpushes p d b T C) ++ ws) (rev (hpushes (S d) b T D) ++ hs).
Proof.
  intros L Hd E H. 
  destruct b; cbn [wpushes hpushes]; auto; try (now apply stk_push); try (now apply stk_flat).
  - rewrite !rev_app_distr, <- !app_assoc. apply stk_push; auto. now apply stk_push.
  - rewrite !rev_app_distr, <- !app_assoc. apply stk_push; auto. now apply stk_push.
  - revert T C D E ws hs H. generalize 0. induction size as [|n IH]; intros q T C D E ws hs H; cbn [wcopy_push hcopy_push]; auto.
    rewrite !rev_app_distr, <- !app_assoc. replace (S d - 1) with d by lia. apply IH; [|now apply stk_push].
    apply wrow_same; auto. 
  - revert T C D E ws hs H. generalize 0. induction size as [|n IH]; intros q T C D E ws hs H; cbn [waxpy_push haxpy_push]; auto.
    rewrite !rev_app_distr, <- !app_assoc. replace (S d - 1) with d by lia. apply IH; [|now apply stk_push].
    apply wprow_same; auto. intros i C0 D0 I E0. unfold lin. rewrite !(E0 _ i) by auto. reflexivity.
Qed.

Lemma wkrun_dir p d ps x xc l : l < p -> 0 < d ->
  forall t (s : wkstate K) (h : hkstate K),
  wF (wkW s) = hF (hkH h) -> same d l (wC (wkW s)) (hC (hkH h)) -> @agree K d l (wY (wkW s)) (hY (hkH h)) ->
  @Stk K p (S d) l (wkk s) (hkk h) -> @dirs_fine K d ps x t (wF (wkW s)) ->
  match @wkrun K p d ps x xc t s, @hkrun K d ps x (fun j => xc j l) t h with
  | Some s', Some h' => wF (wkW s') = hF (hkH h') /\ @agree K d l (wY (wkW s')) (hY (hkH h')) /\ 
      @Stk K p (S d) l (wkk s') (hkk h')
  | None, None => True
  | _, _ => False
  end.
Proof.
  intros L Hd. induction t as [|o t IH]; intros s h Ef Ec Ey Es Fi; cbn [wkrun hkrun]; auto.
  unfold dirs_fine in Fi. cbn [along_run] in Fi. destruct Fi as [F1 F2]. unfold wkstep, hkstep, wstep, hstep. rewrite <- Ef in *.
  destruct (zstep ps x o (wF (wkW s))) as [f'|[f'|]]; cbn [wF hF wY hY wkW hkH wkk hkk]; auto.
  assert (Ew : wfail p d (resolve (fT (wF (wkW s))) o) = hfail d (resolve (fT (wF (wkW s))) o)).
  { unfold wfail, hfail. destruct (resolve (fT (wF (wkW s))) o); auto.
    rewrite (proj2 (Nat.ltb_lt 0 p)) by lia. reflexivity. }
  rewrite Ew. destruct (hfail d _); auto.
  apply IH; cbn [wF hF wC hC wY hY wkW hkH wkk hkk]; auto.
  - apply wval_same; auto.
  - apply Forall2_app; auto. destruct (resolve (fT (wF (wkW s))) o); cbn; constructor; auto.
  - now apply stk_pushes.
Qed.

(* ------------------------------------------------------------------ *)
(* the reverse sweep                                                     *)

(* Every operation hos_reverse meets on its way back is one that hos_ov_reverse treats
   direction by direction:
   - where a product is added or subtracted, the sum has an adjoint (its flag is not 0);
   - no vec_axpy; a floor only where it has no adjoint;
   - at a minimum the two values differ. *)
Definition separable (k : nat) (b : bop K) (s : hrstate K) : Prop :=
  match b with
  | EqPlusProd _ _ res | EqMinProd _ _ res => eqb K (hrF s res) (zero K) = false
  | VecAxpy _ _ _ _ _ => False
  | FloorOp _ res _ => eqb K (hrF s res) (zero K) = true
  | MinOp a1 a2 res _ => let T' := fst (@gettayl K k res (hrT s) (hrk s)) in
      ltb K (T' a2 0) (T' a1 0) || ltb K (T' a1 0) (T' a2 0) = true
  | _ => True
  end.
Fixpoint along_back (k : nat) (L : nat -> nat -> val) (ts : list (op K)) (s : hrstate K) : Prop :=
  match ts with
  | [] => True
  | o :: ts' => separable k (resolve (fun l => hrT s l 0) o) s /\
      match @hrstep K eps k L o s with Some s' => along_back k L ts' s' | None => True end
  end.

Definition proj (p k l : nat) (v : vrstate K) (r : hrstate K) : Prop :=
  vrT v l = hrT r /\ vrF v l = hrF r /\ vrA v l = hrA r /\ @Stk K p k l (vrk v) (hrk r) /\
  vrz v l = hrz r /\ vri v = hri r /\ vrd v = hrd r.

Lemma vrstep_dir p k L o l (v : vrstate K) (r : hrstate K) : 0 < k -> l < p ->
  @uniform K p (vrT v) (vrF v) -> proj p k l v r -> separable k (resolve (fun l => hrT r l 0) o) r ->
  match @vrstep K eps p k L o v, @hrstep K eps k L o r with
  | Some v', Some r' => @uniform K p (vrT v') (vrF v') /\ proj p k l v' r'
  | None, None => True
  | _, _ => False
  end.
Proof.
  intros Hk Hl U (P1 & P2 & P3 & P4 & P5 & P6 & P7) Sp. unfold vrstep, hrstep.
  assert (Hp : 0 < p) by lia.
  assert (Er : (fun loc => vrT v 0 loc 0) = (fun loc => hrT r loc 0)).
  { extensionality loc. rewrite <- P1. symmetry. apply (U l Hl). }
  rewrite Er. set (b := resolve _ o) in *.
  assert (Fi : fine k b (vrT v 0) (vrF v 0) (@vproj K p k 0 (frames b) (vrk v))).
  { assert (F0 : vrF v 0 = hrF r) by (rewrite <- P2; symmetry; apply (U l Hl)).
    assert (T0 : tbase (hrT r) (vrT v 0)) by (intros loc; rewrite <- P1; apply (U l Hl)).
    rewrite F0. unfold separable in Sp. unfold fine. destruct b eqn:Eb; auto.
    refine (@minsure_base K k (MinOp K a1 a2 res c) (hrT r) (vrT v 0) (hrk r) _ Hk T0 _ Sp).
    intros f If. cbn [frames] in *. rewrite (P4 f (k - 1)) by lia. rewrite proj_nth by lia.
    unfold slot. rewrite Nat.ltb_irrefl. reflexivity. }
  destruct (@vrval_dir K eps p k b (vrT v) (vrF v) (vrA v) (vrk v) Hk Hp U Fi) as [V1 V2].
  specialize (V2 l (hrk r) Hl P4). rewrite P1, P2, P3 in V2.
  destruct (@vrval K eps p k b _ _ _ _) as [[[[T' F'] A'] ws']|];
  destruct (@hrval K eps k b _ _ _ _) as [[[[t' f'] a'] hs']|]; cbn [agreeT uniformT] in *; try contradiction; auto.
  destruct V2 as (Q1 & Q2 & Q3 & Q4).
  destruct b; cbn [vrT vrF vrA vrk vrz vri vrd hrT hrF hrA hrk hrz hri hrd];
    try (split; [exact V1|]; unfold proj; cbn [vrT vrF vrA vrk vrz vri vrd hrT hrF hrA hrk hrz hri hrd]; repeat (split; [assumption|]); assumption).
  - split; [exact V1|]. unfold proj; cbn [vrT vrF vrA vrk vrz vri vrd hrT hrF hrA hrk hrz hri hrd].
    rewrite (proj2 (Nat.ltb_lt l p) Hl), P3, P5, P6. auto 10.
  - split.
    + intros l' L'. rewrite (proj2 (Nat.ltb_lt l' p) L'), (proj2 (Nat.ltb_lt 0 p) Hp). destruct (V1 l' L') as [E1 E2].
      rewrite E1. auto.
    + unfold proj; cbn [vrT vrF vrA vrk vrz vri vrd hrT hrF hrA hrk hrz hri hrd].
      rewrite (proj2 (Nat.ltb_lt l p) Hl), Q2, Q3, P7. auto 10.
Qed.

Lemma fold_none (A B : Type) (f : A -> B -> option A) ts : 
  fold_left (fun s o => match s with Some s => f s o | None => None end) ts None = None.
Proof. induction ts; auto. Qed.
Lemma vrrun_dir p k L l ts : 0 < k -> l < p -> forall (v : vrstate K) (r : hrstate K),
  @uniform K p (vrT v) (vrF v) -> proj p k l v r -> along_back k L ts r ->
  match fold_left (fun s o => match s with Some s => @vrstep K eps p k L o s | None => None end) ts (Some v),
        fold_left (fun s o => match s with Some s => @hrstep K eps k L o s | None => None end) ts (Some r) with
  | Some v', Some r' => @uniform K p (vrT v') (vrF v') /\ proj p k l v' r'
  | None, None => True
  | _, _ => False
  end.
Proof.
  intros Hk Hl. induction ts as [|o ts IH]; intros v r U P G; cbn [fold_left]; auto.
  cbn [along_back] in G. destruct G as [G1 G2].
  pose proof (@vrstep_dir p k L o l v r Hk Hl U P G1) as S1.
  destruct (@vrstep K eps p k L o v) as [v'|], (@hrstep K eps k L o r) as [r'|]; try contradiction.
  - destruct S1. apply IH; auto.
  - rewrite (fold_none (fun s o => @vrstep K eps p k L o s)), (fold_none (fun s o => @hrstep K eps k L o s)). exact I.
Qed.

Definition zrows : rows := fun _ _ => zero K.
(* the sweep of hos_ti_reverse over this stack meets only separable operations *)
Definition ov_fine (d : nat) (L : nat -> nat -> val) (n m : nat) (gz : nat -> nat -> val) (st : list val)
  (t : list (op K)) : Prop :=
  along_back (S d) L (rev t) (mkHR zrows (fun _ => zero K) zrows st gz n m).

(* hov_wk_forward with p polynomials of degree d, then hos_ov_reverse: polynomial l is
   treated as hos_forward and hos_ti_reverse treat it alone. *)
Theorem C51_directions p d ps x (xc : nat -> nat -> nat -> val) (g : vmem) (gc : rows) t l :
  l < p -> 0 < d -> @dirs_fine K d ps x t (@mkF K g 0 [] 3%Z []) ->
  match @hov_wk_forward K p d ps x xc g gc t,
        @hos_forward_keep K d ps x (fun j => xc j l) g (fun loc i => gc loc (l * d + i)) t with
  | Some w, Some h =>
      wF (wkW w) = hF (hkH h) /\ @agree K d l (wY (wkW w)) (hY (hkH h)) /\
      forall L n m gz, ov_fine d L n m (gz l) (hkk h) t ->
      match @hos_ov_reverse K eps d p L n m gz (wkk w) t,
            @hos_ti_reverse K eps d L n m zrows (fun _ => zero K) zrows (gz l) (hkk h) t with
      | Some v, Some r => vrz v l = hrz r
      | None, None => True
      | _, _ => False
      end
  | None, None => True
  | _, _ => False
  end.
Proof.
  intros Hl Hd Fi. unfold hov_wk_forward, hos_forward_keep.
  assert (W := @wkrun_dir p d ps x xc l Hl Hd t (mkWK (mkW (@mkF K g 0 [] 3%Z []) gc []) [])
     (mkHK (mkH (@mkF K g 0 [] 3%Z []) (fun loc i => gc loc (l * d + i)) []) [])).
  cbn [wkW hkH wF hF wC hC wY hY wkk hkk] in W.
  specialize (W eq_refl ltac:(intros loc i I; reflexivity) ltac:(constructor)).
  assert (S0 : @Stk K p (S d) l [] []) by (intros f r R; rewrite !nth_overflow by (cbn; lia); reflexivity).
  specialize (W S0 Fi).
  destruct (wkrun _ _ _ _ _ _ _) as [w|], (hkrun _ _ _ _ _ _) as [h|]; auto.
  destruct W as (W1 & W2 & W3). split; [exact W1|]. split; [exact W2|].
  intros L n m gz G. unfold hos_ov_reverse, hos_ti_reverse, vrrun, hrrun.
  pose proof (@vrrun_dir p (S d) L l (rev t) ltac:(lia) Hl
    (mkVR (fun _ _ _ => zero K) (fun _ _ => zero K) (fun _ _ _ => zero K) (wkk w) gz n m)
    (mkHR zrows (fun _ => zero K) zrows (hkk h) (gz l) n m)) as Q.
  specialize (Q ltac:(intros l' L'; split; [reflexivity|intros loc; reflexivity])
                ltac:(unfold proj; cbn; auto 10) G).
  destruct (fold_left _ (rev t) (Some (mkVR _ _ _ _ _ _ _))), (fold_left _ (rev t) (Some (mkHR _ _ _ _ _ _ _))); try contradiction; auto.
  apply Q.
Qed.

(* a condition on the trace alone *)
Definition ordinary (o : op K) : Prop :=
  match o with
  | Plain b => match b with
      | EqPlusProd _ _ _ | EqMinProd _ _ _ | VecAxpy _ _ _ _ _ | FloorOp _ _ _ | MinOp _ _ _ _ => False
      | _ => True end
  | _ => False
  end.
Lemma ordinary_fine d L n m gz st t : List.Forall ordinary t -> ov_fine d L n m gz st t.
Proof.
  intros H. unfold ov_fine. assert (H' : List.Forall ordinary (rev t)).
  { apply List.Forall_forall. intros o Ho. apply in_rev in Ho. rewrite List.Forall_forall in H. auto. }
  clear H. revert H'. generalize (mkHR zrows (fun _ => zero K) zrows st gz n m). generalize (rev t).
  induction l as [|o ts IH]; intros s H; cbn [along_back]; auto. inversion H as [|? ? H1 H2]; subst. split.
  - destruct o; try contradiction. cbn [resolve]. destruct b; try contradiction; exact I.
  - destruct (hrstep _ _ _ _ _); auto.
Qed.
End Any.
