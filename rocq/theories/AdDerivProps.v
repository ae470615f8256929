(* C14: fos_forward computes the directional derivative of the recorded function. *)
From Coq Require Import List ZArith Bool Arith Lia Reals Lra.
From Coquelicot Require Import Coquelicot.
Require Import Verif.AdModel Verif.AdRecord Verif.AdSpec Verif.AdReplay Verif.AdRestore
  Verif.AdTidyCalls Verif.AdPlain Verif.AdPlainRun Verif.AdProps
  Verif.AdReal Verif.AdLin Verif.AdReverse Verif.AdReverseProps Verif.AdDeriv Verif.AdTangent.

Import ListNotations.
Set Implicit Arguments.
Unset Asymmetric Patterns.
Local Open Scope R_scope.

(* ------------------------------------------------------------------ *)
(* Specification                                                        *)

(* The function that was recorded, as zos_forward evaluates it. *)
Definition outputs (ps x : nat -> R) (g : rmem) (t : list (op reals)) : list R :=
  match @zos_forward reals ps x g t with Done m => fy m | Failed _ => [] end.

(* Every operation of the sweep at x is differentiable where it is evaluated. *)
Fixpoint smooth_run (ps x : nat -> R) (t : list (op reals)) (i : nat) (T : rmem) : Prop :=
  match t with
  | [] => True
  | o :: t' =>
      let b := @resolve reals T o in
      let T' := @zval reals ps x i b T in
      smooth b T T' /\ smooth_run ps x t' (if is_ind b then S i else i) T'
  end.

(* Programs without advector elements and frexp; the variable in which asin ..
   erfc build their derivative is a new one. *)
Definition fcall (c : call reals) : bool :=
  match c with
  | CHelp _ f k a t => negb (t =? a)%nat && negb (t =? kres k a)%nat
  | CSubscript _ _ _ _ _ | CSubRef _ _ _ _ _ | CRefOut _ _ _ | CRefConst _ _ _
  | CRefAssign _ _ _ | CRefInc _ _ | CRefDec _ _ | CRefInd _ _ | CRefEqD _ _ _ _
  | CRefEqA _ _ _ _ | CRefCond _ _ _ _ _ | CRefCondS _ _ _ _ | CRefCondEq _ _ _ _ _
  | CRefCondEqS _ _ _ _ | CFrexp _ _ _ => false
  | _ => true
  end.
Fixpoint fprog (p : prog reals) : bool :=
  match p with
  | Ret _ => true
  | Do c p' => fcall c && fprog p'
  | If _ _ pt pf => fprog pt && fprog pf
  end.

(* ------------------------------------------------------------------ *)
(* Traces                                                               *)

Definition next_i (b : bop reals) (i : nat) : nat := if is_ind b then S i else i.

Fixpoint freads (bs : list (bop reals)) (D : nat -> Prop) : Prop :=
  match bs with
  | [] => True
  | b :: bs' => (forall l, In l (breads b) -> D l) /\ freads bs' (plusset D (bwrites b))
  end.
Fixpoint bsmooth (ps x : nat -> R) (bs : list (bop reals)) (i : nat) (T : rmem) : Prop :=
  match bs with
  | [] => True
  | b :: bs' =>
      smooth b T (@zval reals ps x i b T) /\ bsmooth ps x bs' (next_i b i) (@zval reals ps x i b T)
  end.
Fixpoint vouts (ps x : nat -> R) (bs : list (bop reals)) (i : nat) (T : rmem) : list R :=
  match bs with
  | [] => []
  | b :: bs' => out_of b T ++ vouts ps x bs' (next_i b i) (@zval reals ps x i b T)
  end.
Fixpoint btouts (ps x xd : nat -> R) (bs : list (bop reals)) (i : nat) (T D : rmem) : list R :=
  match bs with
  | [] => []
  | b :: bs' => tout_of b D ++ btouts ps x xd bs' (next_i b i) (@zval reals ps x i b T)
                                 (@tval reals ps x xd i b T D)
  end.
Fixpoint noabort (ps x : nat -> R) (bs : list (bop reals)) (i : nat) (T : rmem) : Prop :=
  match bs with
  | [] => True
  | b :: bs' => zabort b T = None /\ noabort ps x bs' (next_i b i) (@zval reals ps x i b T)
  end.

Definition neat (b : bop reals) : Prop :=
  apart b /\ match b with HelpOp _ _ _ _ _ => False | _ => True end.

Fixpoint vals (ps x : nat -> R) (i : nat) (bs : list (bop reals)) (T : rmem) : rmem :=
  match bs with [] => T | b :: bs' => vals ps x i bs' (@zval reals ps x i b T) end.

Inductive helped : list (bop reals) -> Prop :=
| H_nil : helped []
| H_op b bs : neat b -> helped bs -> helped (b :: bs)
| H_grp f a1 a2 r pre bs :
    List.Forall (fun b => neat b /\ is_ind b = false) pre ->
    is_helper f = true -> a2 <> r ->
    (forall ps x i T, vals ps x i pre T a2 = hder f (T a1) /\ vals ps x i pre T a1 = T a1) ->
    helped bs -> helped (pre ++ HelpOp reals f a1 a2 r :: bs).

Section Trace.
Variables (s0 : R) (X : R -> nat -> R) (xd ps : nat -> R).
Hypothesis HX : forall i, is_derive (fun s => X s i) s0 (xd i).

Definition good (bs : list (bop reals)) (i : nat) (Tm : R -> rmem) : Prop :=
  forall (D : nat -> Prop) (Dm : rmem), follows s0 D Tm Dm -> freads bs D -> bsmooth ps (X s0) bs i (Tm s0) ->
  (forall j, is_derive (fun s => nth j (vouts ps (X s) bs i (Tm s)) 0) s0
                       (nth j (btouts ps (X s0) xd bs i (Tm s0) Dm) 0)) /\
  (noabort ps (X s0) bs i (Tm s0) -> locally s0 (fun s => noabort ps (X s) bs i (Tm s))).

Lemma cmp_loc c (f : R -> R) (d : R) : is_derive f s0 d -> f s0 <> 0 ->
  @cmp_bad reals c (f s0) = false -> locally s0 (fun s => @cmp_bad reals c (f s) = false).
Proof.
  intros Hd Sm H.
  assert (P : (f s0 < 0 /\ locally s0 (fun s => f s < 0)) \/ (0 < f s0 /\ locally s0 (fun s => 0 < f s))).
  { destruct (Rtotal_order (f s0) 0) as [L|[L|L]]; [left|contradiction|right]; split; auto.
    - now apply (@loc_neg s0 f d). - now apply (@loc_pos s0 f d). }
  destruct P as [[L P]|[L P]]; (eapply filter_imp; [|exact P]; cbv beta; intros s Hs; clear P Hd);
    destruct c; cbn [cmp_bad eqb ltb leb zero reals] in *; unfold Reqb, Rltb, Rleb in *;
    repeat match goal with
           | |- context [Rlt_dec ?u ?v] => destruct (Rlt_dec u v)
           | |- context [Rle_dec ?u ?v] => destruct (Rle_dec u v)
           | |- context [Req_EM_T ?u ?v] => destruct (Req_EM_T u v)
           end; auto; exfalso; try lra;
    match type of H with
    | context [Rlt_dec ?u ?v] => destruct (Rlt_dec u v)
    | context [Rle_dec ?u ?v] => destruct (Rle_dec u v)
    | context [Req_EM_T ?u ?v] => destruct (Req_EM_T u v)
    end; try discriminate; lra.
Qed.
Lemma abort_loc b (D : nat -> Prop) Tm Dm : follows s0 D Tm Dm -> (forall l, In l (breads b) -> D l) ->
  (exists T', smooth b (Tm s0) T') -> zabort b (Tm s0) = None -> locally s0 (fun s => zabort b (Tm s) = None).
Proof.
  intros F HR [T' Sm] H.
  destruct b; try (apply filter_forall; intros s; reflexivity); try (cbn in Sm; contradiction).
  cbn [smooth] in Sm. cbn [zabort] in *.
  assert (Hd : is_derive (fun s => Tm s arg) s0 (Dm arg)) by (apply F, HR; now left).
  destruct (@cmp_bad reals c (Tm s0 arg)) eqn:B; [discriminate|].
  eapply filter_imp; [|apply (@cmp_loc c (fun s => Tm s arg) _ Hd Sm B)].
  cbv beta. intros s ->. reflexivity.
Qed.

Lemma good_cons b bs i Tm : apart b -> helper_ok b -> helper_val b (Tm s0) ->
  good bs (next_i b i) (fun s => @zval reals ps (X s) i b (Tm s)) -> good (b :: bs) i Tm.
Proof.
  intros Ha Ho Hv G D Dm F [HR HR'] [Sm Sm'].
  pose proof (@op_deriv s0 X xd HX ps i b D Tm Dm F HR Ho Hv Ha Sm) as F'.
  destruct (G _ _ F' HR' Sm') as [G1 G2]. split.
  - intros j. cbn [vouts btouts].
    assert (O : forall s, length (out_of b (Tm s)) = length (tout_of b Dm)) by now destruct b.
    destruct (Nat.lt_ge_cases j (length (tout_of b Dm))) as [L|L].
    + apply (is_derive_ext (fun s => nth j (out_of b (Tm s)) 0)).
      { intros s. symmetry. apply app_nth1. now rewrite O. }
      rewrite app_nth1 by auto.
      destruct b; cbn in L; try lia. destruct j; cbn in L; [|lia]. cbn [out_of tout_of nth].
      apply F, HR. now left.
    + apply (is_derive_ext (fun s => nth (j - length (tout_of b Dm))
          (vouts ps (X s) bs (next_i b i) (@zval reals ps (X s) i b (Tm s))) 0)).
      { intros s. symmetry. rewrite app_nth2, O; auto. now rewrite O. }
      rewrite app_nth2 by auto. apply G1.
  - cbn [noabort]. intros [N1 N2]. apply filter_and; [|now apply G2].
    eapply abort_loc; eauto.
Qed.

Lemma good_pre pre : List.Forall (fun b => neat b /\ is_ind b = false) pre -> forall bs i Tm,
  (good bs i (fun s => vals ps (X s) i pre (Tm s))) -> good (pre ++ bs) i Tm.
Proof.
  induction 1 as [|b pre [[Ha Hb] Hi] _ IH]; intros bs i Tm G; cbn [app vals] in *; auto.
  apply good_cons; auto; try (now destruct b).
  unfold next_i. rewrite Hi. apply IH. exact G.
Qed.

Theorem trace_good bs : helped bs -> forall i Tm, good bs i Tm.
Proof.
  induction 1 as [|b bs [Ha Hb] _ IH|f a1 a2 r pre bs Hp Hf Hn Hv _ IH]; intros i Tm.
  - intros D Dm F _ _. split.
    + intros j. cbn [vouts btouts]. destruct j; cbn [nth]; exact (d_const 0 s0).
    + intros _. apply filter_forall. intros; exact I.
  - apply good_cons; auto; now destruct b.
  - apply good_pre; auto. apply good_cons; auto.
    cbn. destruct (Hv ps (X s0) i (Tm s0)) as [-> ->]. reflexivity.
Qed.
End Trace.

(* ------------------------------------------------------------------ *)
(* The recorded trace                                                   *)

Lemma noabort_exec ps x bs : forall (m : fstate reals),
  noabort ps x bs (fi m) (fT m) ->
  exists m', @zexec reals ps x (map (@Plain reals) bs) m = inl m' /\
    fy m' = fy m ++ vouts ps x bs (fi m) (fT m).
Proof.
  induction bs as [|b bs IH]; intros m H; cbn [map zexec vouts noabort] in *.
  - exists m. now rewrite app_nil_r.
  - destruct H as [H1 H2]. unfold zstep. cbn [oob resolve]. rewrite H1.
    edestruct IH as (m' & E & Y); [|exists m'; split; [exact E|]].
    + exact H2.
    + rewrite Y. cbn [fy fi fT]. now rewrite <- app_assoc.
Qed.
Lemma exec_noabort ps x bs : forall (m m' : fstate reals),
  @zexec reals ps x (map (@Plain reals) bs) m = inl m' -> noabort ps x bs (fi m) (fT m).
Proof.
  induction bs as [|b bs IH]; intros m m' H; cbn [map zexec noabort] in *; auto.
  unfold zstep in H. cbn [oob resolve] in H.
  destruct (zabort b (fT m)) eqn:E; [discriminate|]. split; auto. now apply IH in H.
Qed.
Lemma touts_b ps x xd bs : forall i T D,
  touts ps x xd (map (@Plain reals) bs) i T D = btouts ps x xd bs i T D.
Proof.
  induction bs as [|b bs IH]; intros i T D; cbn [map touts btouts resolve]; auto.
  now rewrite IH.
Qed.
Lemma smooth_b ps x bs : forall i T,
  smooth_run ps x (map (@Plain reals) bs) i T -> bsmooth ps x bs i T.
Proof.
  induction bs as [|b bs IH]; intros i T; cbn [map smooth_run bsmooth resolve]; auto.
  intros [A B]. split; auto.
Qed.

Lemma outs_length ps x xd bs : forall i T D,
  length (btouts ps x xd bs i T D) = length (vouts ps x bs i T).
Proof.
  induction bs as [|b bs IH]; intros i T D; cbn [btouts vouts]; auto.
  rewrite !app_length, IH. f_equal. now destruct b.
Qed.

Theorem C14_trace s0 (X : R -> nat -> R) xd ps bs (g gd : rmem) m td :
  (forall i, is_derive (fun s => X s i) s0 (xd i)) ->
  let t := map (@Plain reals) bs in
  helped bs -> freads bs (fun _ => False) ->
  smooth_run ps (X s0) t 0 g ->
  @zos_forward reals ps (X s0) g t = Done m -> (0 <= frc m)%Z ->
  @fos_forward reals ps (X s0) xd g gd t = Some td ->
  length (tyd td) = length (fy m) /\
  forall j, is_derive (fun s => nth j (outputs ps (X s) g t) 0) s0 (nth j (tyd td) 0).
Proof.
  intros HX t Hh Hr Hs Hz Hc Hf.
  pose proof (@zrun_path reals ps (X s0) t _ _ Hz Hc) as E.
  pose proof (@exec_noabort ps (X s0) bs _ _ E) as N. cbn [fi fT] in N.
  destruct (@trun_touts ps (X s0) xd t _ td m Hf E) as [_ Q]. cbn [tyd tF fi fT tD app] in Q.
  unfold t in Q. rewrite touts_b in Q.
  destruct (@trace_good s0 X xd ps HX bs Hh 0%nat (fun _ => g) (fun _ => False) gd) as [G1 G2]; auto.
  { intros l []. }
  { now apply smooth_b. }
  split.
  - rewrite Q. destruct (@noabort_exec ps (X s0) bs (@mkF reals g 0 [] 3%Z []) N) as (m' & E' & Y).
    fold t in E'. rewrite E in E'. injection E' as <-. rewrite Y. cbn [fy fi fT app].
    apply outs_length.
  - intros j. rewrite Q.
    eapply der_loc; [|apply G1].
    eapply filter_imp; [|exact (G2 N)]. cbv beta. intros s Ns.
    destruct (@noabort_exec ps (X s) bs (@mkF reals g 0 [] 3%Z []) Ns) as (m' & E' & Y).
    unfold outputs, zos_forward. rewrite zrun_exec. fold t in E'. rewrite E', Y. reflexivity.
Qed.

(* ------------------------------------------------------------------ *)
(* From the program to its trace                                        *)

Definition help_bops (f : fname) (a t : nat) : list (bop reals) :=
  let cst c cv := cst_op reals c cv t t in
  let sq := [AssignD0 reals t; MultAA reals a a t] in
  let s2pi := sqrt (acos (-1)) in
  let gauss := [AssignD0 reals t; NegSign reals a t; MultAA reals t a t; ExpOp reals t t] in
  match f with
  | Fasin => sq ++ [cst KSub 1; SqrtOp reals t t; cst KDiv 1]
  | Facos => sq ++ [cst KSub 1; SqrtOp reals t t; cst KDiv (- (1))]
  | Fatan => sq ++ [cst KAdd 1; cst KDiv 1]
  | Fasinh => sq ++ [cst KAdd 1; SqrtOp reals t t; cst KDiv 1]
  | Facosh => sq ++ [cst KAdd (- (1)); SqrtOp reals t t; cst KDiv 1]
  | Fatanh => sq ++ [cst KSub 1; cst KDiv 1]
  | Ferf => gauss ++ [cst KMul (2 / sqrt (acos (- (1))))]
  | Ferfc => gauss ++ [cst KMul (- (2) / sqrt (acos (- (1))))]
  | _ => []
  end.

Lemma cst_zval ps x i c cv a r (T : rmem) :
  @zval reals ps x i (cst_op reals c cv a r) T = @upd reals T r (cst_val reals c cv (T a)).
Proof.
  destruct c; cbn [cst_op cst_val]; unfold eq0, eq1; cbn [eqb neg zero one reals];
    repeat match goal with |- context [Reqb ?u ?v] => let E := fresh in
      destruct (Reqb u v) eqn:E; [apply Reqb_eq in E; subst cv|] end;
    cbn [zval add sub mul dvd neg reals]; f_equal; ring.
Qed.
Lemma cst_neat c cv a r : neat (cst_op reals c cv a r) /\ is_ind (cst_op reals c cv a r) = false.
Proof.
  destruct c; cbn [cst_op]; unfold neat;
    repeat match goal with |- context [if ?e then _ else _] => destruct e end; cbn; auto.
Qed.

Lemma help_ops f a t : is_helper f = true ->
  Forall2 (fun (p : prim reals) b => forall T, p_op p T = [Plain b]) (help_prims reals f a t) (help_bops f a t).
Proof.
  intros H. destruct f; try discriminate H; unfold help_prims, help_bops; cbn [app];
    repeat first [apply Forall2_nil | apply Forall2_cons; [intros T; reflexivity|]].
Qed.
Lemma help_neat f a t : List.Forall (fun b => neat b /\ is_ind b = false) (help_bops f a t).
Proof.
  destruct f; unfold help_bops; cbn [app];
    repeat first [apply List.Forall_nil
                 | apply List.Forall_cons; [first [apply cst_neat | split; [split; cbn; auto|reflexivity]]|]].
Qed.
Lemma help_vals f a t ps x i (T : rmem) : is_helper f = true -> t <> a ->
  vals ps x i (help_bops f a t) T t = hder f (T a) /\ vals ps x i (help_bops f a t) T a = T a.
Proof.
  intros H N. assert (Na : (a =? t)%nat = false) by (apply Nat.eqb_neq; auto).
  destruct f; try discriminate H; unfold help_bops; cbn [app vals hder]; rewrite ?cst_zval;
    cbn [zval]; unfold upd; rewrite ?Nat.eqb_refl, ?Na;
    cbn [add sub mul dvd neg fn zero one cst_val reals Rfn]; rewrite ?Nat.eqb_refl, ?Na;
    (split; [|reflexivity]).
  all: try replace (acos (- (1))) with (acos (-1)) by (f_equal; lra).
  all: try replace (1 + T a * T a) with (T a * T a + 1) by ring.
  all: try replace (- (1) + T a * T a) with (T a * T a - 1) by ring.
  all: unfold Rdiv; ring.
Qed.

Lemma helped_app bs1 bs2 : helped bs1 -> helped bs2 -> helped (bs1 ++ bs2).
Proof.
  induction 1; intros Hh2; cbn [app]; auto.
  - now apply H_op; auto.
  - rewrite <- app_assoc. cbn [app]. apply H_grp; auto.
Qed.
Lemma helped_neat bs : List.Forall neat bs -> helped bs.
Proof. induction 1; constructor; auto. Qed.

Fixpoint grow (D : nat -> Prop) (bs : list (bop reals)) : nat -> Prop :=
  match bs with [] => D | b :: bs' => grow (plusset D (bwrites b)) bs' end.
Lemma grow_mono bs : forall (D D' : nat -> Prop), (forall l, D l -> D' l) -> forall l, grow D bs l -> grow D' bs l.
Proof.
  induction bs as [|b bs IH]; intros D D' H l; cbn [grow]; auto.
  apply IH. intros k [A|A]; [left; auto|now right].
Qed.
Lemma grow_sub bs : forall (D : nat -> Prop) l, D l -> grow D bs l.
Proof. induction bs; intros D l H; cbn [grow]; auto. apply IHbs. now left. Qed.
Lemma grow_app bs1 bs2 : forall D, grow D (bs1 ++ bs2) = grow (grow D bs1) bs2.
Proof. induction bs1; intros D; cbn [app grow]; auto. Qed.
Lemma freads_mono bs : forall (D D' : nat -> Prop), (forall l, D l -> D' l) -> freads bs D -> freads bs D'.
Proof.
  induction bs as [|b bs IH]; intros D D' H; cbn [freads]; auto.
  intros [A B]. split; auto. eapply IH; [|exact B]. intros k [C|C]; [left; auto|now right].
Qed.
Lemma freads_app bs1 bs2 : forall D, freads bs1 D -> freads bs2 (grow D bs1) -> freads (bs1 ++ bs2) D.
Proof.
  induction bs1 as [|b bs1 IH]; intros D H1 H2; cbn [app freads grow] in *; auto.
  destruct H1. split; auto.
Qed.

(* one or no plain operation per primitive step *)
Definition plainp (p : prim reals) : Prop := forall T, exists b, p_op p T = [Plain b].

Lemma prims_trace ps x l : List.Forall plainp l -> forall s s' D k,
  okprims ps x l s D k -> rprims ps x l s = Some s' ->
  exists bs D', sops s' = sops s ++ map (@Plain reals) bs /\ freads bs D /\ k s' D' /\
    (forall l, D' l -> grow D bs l).
Proof.
  induction 1 as [|p l Hp _ IH]; intros s s' D k Ok R; cbn [okprims rprims] in *.
  - injection R as <-. exists [], D. rewrite app_nil_r. cbn. auto.
  - destruct Ok as [O1 O2]. destruct (rprim ps x p s) as [s1|] eqn:E; [|discriminate].
    destruct (IH _ _ _ _ O2 R) as (bs & D' & Eo & Fr & Kk & Sub).
    destruct (Hp (sT s)) as [b Eb].
    apply rprim_plain in E. exists (b :: bs), D'. split; [|split; [|split; [exact Kk|]]].
    + rewrite Eo, E, Eb. cbn. now rewrite <- app_assoc.
    + cbn [freads]. split.
      * intros l0 Hl. apply (O1 (Plain b)); [rewrite Eb; now left|]. exact Hl.
      * eapply freads_mono; [|exact Fr].
        intros l0 [[Hl|(o & Ho & Hw)] _]; [now left|]. right. rewrite Eb in Ho.
        destruct Ho as [<-|[]]. exact Hw.
    + cbn [grow]. intros l0 Hl. apply Sub in Hl. eapply grow_mono; [|exact Hl].
      intros l1 [[Hk|(o & Ho & Hw)] _]; [now left|]. right. rewrite Eb in Ho.
      destruct Ho as [<-|[]]. exact Hw.
Qed.

Lemma cons_app {A} (x : A) l : x :: l = [x] ++ l. Proof. reflexivity. Qed.
Lemma plainp_all c : fcall c = true -> List.Forall plainp (prims c).
Proof.
  intros H. destruct c; try discriminate H; cbn [prims];
    repeat match goal with |- context [match ?k with Fresh _ => _ | Temp => _ end] => destruct k end;
    unfold knew; cbn [app];
    repeat match goal with
    | |- List.Forall _ (if ?e then _ else _) => destruct e
    | |- List.Forall _ (match ?k with Fresh _ => _ | Temp => _ end ++ _) => destruct k; cbn [app]
    | |- List.Forall _ [] => apply List.Forall_nil
    | |- List.Forall _ (_ :: _) => apply List.Forall_cons; [intros T; eexists; reflexivity|]
    | |- List.Forall _ (_ ++ _) => apply List.Forall_app; split
    end.
  all: try (destruct f; cbn [help_prims app]; repeat (apply List.Forall_cons; [intros T; eexists; reflexivity|]); apply List.Forall_nil).
Qed.

Lemma plain_inj (l1 l2 : list (bop reals)) : map (@Plain reals) l1 = map (@Plain reals) l2 -> l1 = l2.
Proof.
  revert l2. induction l1; intros [|b l2] H; cbn in H; try discriminate; auto.
  injection H as -> H. f_equal. auto.
Qed.

Definition neatp (p : prim reals) : Prop := forall T b, p_op p T = [Plain b] -> neat b.
Lemma prims_neat ps x l : List.Forall plainp l -> List.Forall neatp l -> forall s s',
  rprims ps x l s = Some s' ->
  exists bs, sops s' = sops s ++ map (@Plain reals) bs /\ List.Forall neat bs.
Proof.
  intros Hp Hn. induction l as [|p l IH]; intros s s' R; cbn [rprims] in R.
  - injection R as <-. exists []. rewrite app_nil_r. auto.
  - inversion Hp; inversion Hn; subst. destruct (rprim ps x p s) as [s1|] eqn:E; [|discriminate].
    destruct (IH H2 H6 _ _ R) as (bs & Eo & Nb). destruct (H1 (sT s)) as [b Eb].
    apply rprim_plain in E. exists (b :: bs). split.
    + rewrite Eo, E, Eb. cbn. now rewrite <- app_assoc.
    + constructor; auto. now apply (H5 (sT s)).
Qed.
Definition nohelp (c : call reals) : bool := match c with CHelp _ _ _ _ _ => false | _ => true end.
Lemma neatp_all c xx i T : fcall c = true -> nohelp c = true -> @callok reals xx i T c -> List.Forall neatp (prims c).
Proof.
  intros H Hn Ok. destruct c; try discriminate H; try discriminate Hn; cbn [prims];
    repeat match goal with |- context [match ?k with Fresh _ => _ | Temp => _ end] => destruct k end;
    unfold knew; cbn [app];
    repeat match goal with
    | |- List.Forall _ (if ?e then _ else _) => destruct e
    | |- List.Forall _ (match ?k with Fresh _ => _ | Temp => _ end ++ _) => destruct k; cbn [app]
    | |- List.Forall _ [] => apply List.Forall_nil
    | |- List.Forall _ (_ :: _) => apply List.Forall_cons; [intros T1 b1 E1|]
    end.
  all: cbn in E1; try (injection E1 as <-);
    repeat match goal with |- context [if ?e then _ else _] => destruct e end;
    try match goal with |- neat (un_op _ ?u _ _ _) => destruct u end;
    try match goal with |- neat (bin_op _ ?u _ _ _) => destruct u end;
    try match goal with |- neat (eqd_op _ ?u _ _) => destruct u end;
    try match goal with |- neat (eqa_op _ ?u _ _) => destruct u end;
    try apply cst_neat;
    try (split; cbn; auto; fail);
    try (split; [exact Ok|exact I]).
  all: destruct u; split; cbn; auto.
Qed.

Lemma call_trace ps x c s s' D k : fcall c = true ->
  @callok reals x (si s) (sT s) c -> okprims ps x (prims c) s D k -> rprims ps x (prims c) s = Some s' ->
  exists bs D', sops s' = sops s ++ map (@Plain reals) bs /\ freads bs D /\ k s' D' /\
    (forall l, D' l -> grow D bs l) /\ helped bs.
Proof.
  intros Fc Ok Op R.
  destruct (@prims_trace ps x _ (@plainp_all _ Fc) _ _ _ _ Op R) as (bs & D' & Eo & Fr & Kk & Sub).
  exists bs, D'. repeat (split; [assumption|]).
  destruct (nohelp c) eqn:N.
  - destruct (@prims_neat ps x _ (@plainp_all _ Fc) (@neatp_all _ _ _ _ Fc N Ok) _ _ R) as (bs' & Eo' & Nb).
    rewrite Eo in Eo'. apply app_inv_head, plain_inj in Eo'. subst. now apply helped_neat.
  - destruct c; try discriminate N. cbn [fcall] in Fc. apply andb_prop in Fc as [F1 F2].
    apply negb_true_iff, Nat.eqb_neq in F1, F2.
    cbn [prims] in R. destruct (is_helper f) eqn:Hf.
    + rewrite rprims_app' in R. destruct (rprims ps x (knew reals k0) s) as [s1|] eqn:E1; [|discriminate].
      rewrite rprims_app' in R. destruct (rprims ps x (help_prims reals f a t) s1) as [s2|] eqn:E2; [|discriminate].
      injection R as <-. cbn [sops p_op wr] in Eo.
      apply (@rprims_ops ps x _ _ (@help_ops f a t Hf)) in E2.
      assert (E0 : exists b0, sops s1 = sops s ++ map (@Plain reals) b0 /\ List.Forall neat b0).
      { destruct k0; cbn in E1; injection E1 as <-.
        - exists [AssignD0 reals r]. split; auto. constructor; auto. split; cbn; auto.
        - exists []. rewrite app_nil_r. auto. }
      destruct E0 as (b0 & E0 & Nb0). rewrite E2, E0, <- !app_assoc in Eo.
      apply app_inv_head in Eo.
      assert (Eb : bs = b0 ++ help_bops f a t ++ [HelpOp reals f a t (kres k0 a)]).
      { apply plain_inj. rewrite <- Eo, !map_app. reflexivity. }
      subst bs. apply helped_app; [now apply helped_neat|].
      apply H_grp; auto.
      * apply help_neat.
      * intros ps0 x0 i0 T. now apply help_vals.
      * constructor.
    + injection R as <-. rewrite <- (app_nil_r (sops s)) in Eo at 1.
      apply app_inv_head in Eo. destruct bs; [constructor|discriminate].
Qed.

Lemma run_trace ps x p : forall s s' (D : nat -> Prop), fprog p = true ->
  okrun ps x p s D -> run ps x p s = Some s' ->
  exists bs, sops s' = sops s ++ map (@Plain reals) bs /\ freads bs D /\ helped bs.
Proof.
  induction p as [|c p IH|r a pt IHt pf IHf]; intros s s' D Fp Ok R; cbn [fprog okrun run] in *.
  - injection R as <-. exists []. rewrite app_nil_r. repeat split. constructor.
  - apply andb_prop in Fp as [Fc Fp]. destruct Ok as [Oc Ok].
    destruct (rprims ps x (prims c) s) as [s1|] eqn:E; [|discriminate].
    destruct (@call_trace ps x c s s1 D _ Fc Oc Ok E) as (bs & D' & Eo & Fr & Ok' & Sub & Hh).
    destruct (IH _ _ _ Fp Ok' R) as (bs' & Eo' & Fr' & Hh').
    exists (bs ++ bs'). split; [|split].
    + rewrite Eo', Eo, map_app, app_assoc. reflexivity.
    + apply freads_app; auto. eapply freads_mono; eauto.
    + now apply helped_app.
  - apply andb_prop in Fp as [Ft Ff]. destruct Ok as (Da & _ & Ok).
    assert (C : exists bs, sops s' = sops (rcmp r a s) ++ map (@Plain reals) bs /\ freads bs D /\ helped bs).
    { destruct (rel_val reals r (sT s a)); eauto. }
    destruct C as (bs & Eo & Fr & Hh).
    exists (Cmp reals (rel_op reals r (sT s a)) a :: bs). split; [|split].
    + rewrite Eo. cbn. now rewrite <- app_assoc.
    + cbn [freads]. split; [intros l [<-|[]]; exact Da|].
      eapply freads_mono; [|exact Fr]. intros l Hl. now left.
    + constructor; auto. split; cbn; auto.
Qed.

Lemma stock_trace T0 chunks : forall from (D : nat -> Prop),
  exists bs, stock_ops T0 chunks from = map (@Plain reals) bs /\ freads bs D /\ helped bs /\
    (forall l, D l \/ (from <= l < from + total chunks)%nat -> grow D bs l).
Proof.
  induction chunks as [|n cs IH]; intros from D; cbn [stock_ops total fold_right].
  - exists []. repeat split; auto. constructor. intros l [Hl|Hl]; [exact Hl|lia].
  - destruct (IH (from + n)%nat (plusset D (seq from n))) as (bs & E & F & H & G).
    exists (TakeStock reals n from (map T0 (seq from n)) :: bs). split; [|split; [|split]].
    + cbn. now rewrite E.
    + cbn [freads]. split; [intros l []|exact F].
    + constructor; auto. split; cbn; auto.
    + cbn [grow bwrites]. intros l Hl. apply G.
      destruct Hl as [Hl|Hl]; [left; now left|].
      unfold total in *. destruct (Nat.lt_ge_cases l (from + n)).
      * left. right. apply in_seq. lia.
      * right. lia.
Qed.

(* A program is recorded at x1 (with parameters ps1); at X s0 the sweep over its
   trace does not change branch and every operation is differentiable there.  X is
   any differentiable curve through that point, with velocity xd.  Then the
   tangents returned by fos_forward are the derivatives of the outputs of
   zos_forward along the curve.  g, gd: contents of the uninitialised buffers. *)
Theorem C14_directional_derivative T0 chunks last ps1 x1 p s1
  ps s0 (X : R -> nat -> R) xd (g gd : rmem) m td :
  @wellbehaved reals ps1 x1 p (pstart T0 chunks) -> fprog p = true ->
  @run reals ps1 x1 p (start T0 chunks) = Some s1 ->
  let t := finish last s1 in
  (forall i, is_derive (fun s => X s i) s0 (xd i)) ->
  smooth_run ps (X s0) t 0 g ->
  @zos_forward reals ps (X s0) g t = Done m -> (0 <= frc m)%Z ->
  @fos_forward reals ps (X s0) xd g gd t = Some td ->
  length (tyd td) = length (fy m) /\
  forall j, is_derive (fun s => nth j (outputs ps (X s) g t) 0) s0 (nth j (tyd td) 0).
Proof.
  intros W Fp R t HX Sm Hz Hc Hf.
  destruct (@plain_run reals reals_laws ps1 x1 p (pstart T0 chunks) (start T0 chunks)
              (stocked chunks) W) as [Ok _]; auto.
  { intros l _. reflexivity. }
  destruct (@run_trace ps1 x1 p _ _ _ Fp Ok R) as (bs & Eo & Fr & Hh).
  destruct (@stock_trace T0 chunks 0%nat (fun _ => False)) as (b0 & E0 & F0 & H0 & G0).
  assert (Et : t = map (@Plain reals) (b0 ++ bs ++ [DeathNot reals 0 last])).
  { unfold t, finish. rewrite Eo. cbn [start sops]. rewrite E0, !map_app, app_assoc. reflexivity. }
  rewrite Et in *. eapply C14_trace; eauto.
  - apply helped_app; auto. apply helped_app; auto. constructor; [split; cbn; auto|constructor].
  - apply freads_app; auto. apply freads_app.
    + eapply freads_mono; [|exact Fr]. intros l Hl. apply G0. right. unfold stocked in Hl.
      unfold total. lia.
    + cbn. split; auto. intros l [].
Qed.

(* The same about the program itself: near the point the program runs with the
   outcomes of the comparisons recorded, and its outputs are py (q s). *)
Theorem C14_program T0 chunks last x1 p s1
  ps s0 (X : R -> nat -> R) xd (g gd : rmem) td (q : R -> pst reals) :
  @wellbehaved reals ps x1 p (pstart T0 chunks) -> fprog p = true ->
  @run reals ps x1 p (start T0 chunks) = Some s1 ->
  let t := finish last s1 in
  (forall i, is_derive (fun s => X s i) s0 (xd i)) ->
  smooth_run ps (X s0) t 0 g ->
  locally s0 (fun s => @wellbehaved reals ps (X s) p (pstart T0 chunks) /\
                       @plain reals ps (X s) p (pstart T0 chunks) = Some (q s) /\ sd s1 = pd (q s)) ->
  @fos_forward reals ps (X s0) xd g gd t = Some td ->
  forall j, is_derive (fun s => nth j (py (q s)) 0) s0 (nth j (tyd td) 0).
Proof.
  intros W Fp R t HX Sm L Hf j.
  assert (P : forall s, (@wellbehaved reals ps (X s) p (pstart T0 chunks) /\
                       @plain reals ps (X s) p (pstart T0 chunks) = Some (q s) /\ sd s1 = pd (q s)) ->
     exists m, @zos_forward reals ps (X s) g t = Done m /\ (0 <= frc m)%Z /\ fy m = py (q s)).
  { intros s (A & B & C). eapply C12_replay_completes; eauto. apply reals_laws. }
  destruct (P s0 (locally_singleton _ _ L)) as (m & Hz & Hc & Y).
  destruct (@C14_directional_derivative T0 chunks last ps x1 p s1 ps s0 X xd g gd m td) as [_ G]; auto.
  eapply der_loc; [|apply G]. eapply filter_imp; [|exact L]. intros s Hs. cbv beta.
  destruct (P s Hs) as (m2 & Hz2 & _ & Y2). unfold outputs. unfold t in Hz2. rewrite Hz2, Y2. reflexivity.
Qed.

(* ------------------------------------------------------------------ *)
(* The gradient: fos_reverse with the j-th unit vector as weights returns the
   partial derivatives of the j-th output.                                *)

(* x with its i-th component replaced by s; the j-th unit vector *)
Definition setx (x : nat -> R) (i : nat) (s : R) : nat -> R := fun k => if (k =? i)%nat then s else x k.
Definition unitv (i : nat) : nat -> R := fun k => if (k =? i)%nat then 1 else 0.

Lemma setx_id x i : setx x i (x i) = x.
Proof.
  apply FunctionalExtensionality.functional_extensionality. intros k. unfold setx.
  destruct (Nat.eqb_spec k i); congruence.
Qed.
Lemma setx_der x i s k : is_derive (fun s => setx x i s k) s (unitv i k).
Proof. unfold setx, unitv. destruct (k =? i)%nat; [apply d_id|apply d_const]. Qed.

Lemma smooth_regular b (T : rmem) ps x i : @zval reals ps x i b T = @zval reals ps x i b T ->
  smooth b T (@zval reals ps x i b T) -> regular b T (@zval reals ps x i b T).
Proof.
  intros _ H. destruct b; cbn [smooth regular] in *; auto; try tauto.
  - lra.
  - left. destruct H; lra.
  - assert (P : 0 < sqrt (T arg)) by now apply sqrt_lt_R0.
    cbn [zval]. unfold upd. cbn. rewrite Nat.eqb_refl. destruct (arg =? res)%nat; lra.
  - pose proof (@cbrt_nz (T arg) H) as P.
    cbn [zval]. unfold upd. cbn. rewrite Nat.eqb_refl. destruct (arg =? res)%nat; auto.
Qed.
Lemma smooth_regular_run ps x t : forall i T, smooth_run ps x t i T -> regular_run ps x t i T.
Proof.
  induction t as [|o t IH]; intros i T; cbn [smooth_run regular_run]; auto.
  intros [A B]. split; auto. now apply smooth_regular.
Qed.
Lemma trun_some ps x xd t : forall (s : tstate reals) m, zexec ps x t (tF s) = inl m ->
  exists td, trun ps x xd t s = Some td.
Proof.
  induction t as [|o t IH]; intros s m H; cbn [zexec trun] in *; eauto.
  unfold tstep. destruct (zstep ps x o (tF s)) as [f|r]; [|discriminate].
  eapply IH. exact H.
Qed.
Lemma wsum_unit j ys : forall k, (k <= j)%nat -> wsum (unitv j) k ys = nth (j - k) ys 0.
Proof.
  induction ys as [|y ys IH]; intros k Hk; cbn [wsum].
  - now destruct (j - k)%nat.
  - unfold unitv at 1. destruct (Nat.eqb_spec k j) as [->|N].
    + rewrite Nat.sub_diag. cbn [nth].
      assert (Z : forall ys k, (j < k)%nat -> wsum (unitv j) k ys = 0).
      { clear. induction ys as [|y ys IH]; intros k H; cbn [wsum]; auto.
        rewrite IH by lia. unfold unitv. destruct (Nat.eqb_spec k j); [lia|ring]. }
      rewrite Z by lia. ring.
    + rewrite IH by lia. replace (j - k)%nat with (S (j - S k)) by lia. cbn [nth]. ring.
Qed.
Lemma isum_unit z i n : forall k, isum z (unitv i) k n = if ((k <=? i) && (i <? k + n))%nat then z i else 0.
Proof.
  induction n as [|n IH]; intros k; cbn [isum].
  - destruct (Nat.leb_spec k i), (Nat.ltb_spec i (k + 0)); auto; lia.
  - rewrite IH. unfold unitv.
    destruct (Nat.eqb_spec k i), (Nat.leb_spec (S k) i), (Nat.ltb_spec i (S k + n)),
      (Nat.leb_spec k i), (Nat.ltb_spec i (k + S n)); subst; cbn [andb]; try lia; ring.
Qed.

Theorem C15_gradient T0 chunks last ps1 x1 p s1 ps x (g gT gA : rmem) gz m i j :
  @wellbehaved reals ps1 x1 p (pstart T0 chunks) -> fprog p = true ->
  (total chunks <= S last)%nat ->
  prog_ok (S last) p (fun l => l <? total chunks)%nat (fun _ => false) = true ->
  @run reals ps1 x1 p (start T0 chunks) = Some s1 ->
  let t := finish last s1 in
  @zos_forward reals ps x g t = Done m -> (0 <= frc m)%Z ->
  smooth_run ps x t 0 g ->
  (i < fi m)%nat ->
  let r := @fos_reverse reals (unitv j) (fi m) (length (fy m)) gT gA gz (fk m) t in
  is_derive (fun s => nth j (outputs ps (setx x i s) g t) 0) (x i) (rz r i).
Proof.
  intros W Fp Hl Ok R t Hz Hc Sm Hi r.
  assert (E : zexec ps x t (@mkF reals g 0 [] 3%Z []) = inl m) by now apply zrun_path.
  destruct (@trun_some ps x (unitv i) t (mkT (@mkF reals g 0 [] 3%Z []) (fun _ => 0) []) m E) as [td Hf].
  destruct (@C14_directional_derivative T0 chunks last ps1 x1 p s1 ps (x i) (setx x i) (unitv i) g
              (fun _ => 0) m td) as [_ G]; auto.
  { intros k. apply setx_der. }
  { rewrite setx_id. exact Sm. }
  { rewrite setx_id. exact Hz. }
  { rewrite setx_id. exact Hf. }
  evar_last; [apply (G j)|].
  assert (A := @C15_adjoint T0 chunks last ps1 x1 p t ps x (unitv i) (unitv j) g (fun _ => 0) gT gA gz m td).
  cbv zeta in A. rewrite (@wsum_unit j) in A by lia. rewrite Nat.sub_0_r in A.
  transitivity (isum (rz r) (unitv i) 0 (fi m)).
  { apply A; auto.
    - unfold record. rewrite R. reflexivity.
    - now apply smooth_regular_run. }
  - rewrite isum_unit. cbn [Nat.leb andb]. apply Nat.ltb_lt in Hi.
    change (0 + fi m)%nat with (fi m). rewrite Hi. reflexivity.
Qed.
