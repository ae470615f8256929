(* hos_ov_reverse direction by direction. *)
From Coq Require Import List ZArith Bool Arith Lia FunctionalExtensionality.
Require Import Verif.AdModel Verif.HosModel Verif.HosLoops Verif.HovModel Verif.HovProofs Verif.HrvModel Verif.VrvModel.
Import ListNotations.
Set Implicit Arguments.
Set Asymmetric Patterns.

Lemma nth_skip (A : Type) (d : A) n : forall (l : list A) i, nth i (skipn n l) d = nth (n + i) l d.
Proof.
  induction n as [|n IH]; intros [|a l] i; cbn [skipn]; auto.
  - destruct i; reflexivity.
  - rewrite IH. reflexivity.
Qed.
Lemma skip_skip (A : Type) n m (l : list A) : skipn n (skipn m l) = skipn (m + n) l.
Proof. revert l. induction m as [|m IH]; intros [|a l]; cbn [skipn Nat.add]; auto. now rewrite skipn_nil. Qed.

Section Any.
Variable K : Arith.
Notation val := (V K).
Notation vmem := (mem K).
Notation rows := (rows K).
Variable eps : val.

Definition peek (n : nat) (a b : list val) : Prop := forall i, i < n -> nth i a (zero K) = nth i b (zero K).
Lemma peek_skip n k a b : peek (k + n) a b -> peek n (skipn k a) (skipn k b).
Proof. intros H i I. rewrite !nth_skip. apply H. lia. Qed.

Lemma gettayl_stack k res (T : rows) hs s1 : peek k hs s1 ->
  @gettayl K k res T hs = (fst (@gettayl K k res T s1), skipn k hs).
Proof.
  intros H. unfold gettayl. cbn [fst]. f_equal. unfold setrow. extensionality l'. extensionality i.
  destruct (Nat.eqb l' res); cbn [andb]; auto. destruct (Nat.ltb_spec i k); auto. apply H. lia.
Qed.
Lemma gettayl_up_stack k n : forall j (T : rows) hs s1, peek (n * k) hs s1 ->
  @gettayl_up K k n j T hs = (fst (@gettayl_up K k n j T s1), skipn (n * k) hs).
Proof.
  induction n as [|n IH]; intros j T hs s1 H; cbn [gettayl_up Nat.mul]; auto.
  rewrite (@gettayl_stack k j T hs s1) by (intros i I; apply H; cbn; lia).
  destruct (@gettayl K k j T s1) as [T' st'] eqn:E. cbn [fst].
  assert (st' = skipn k s1) as -> by (unfold gettayl in E; congruence).
  rewrite (IH (S j) T' _ (skipn k s1)) by (apply peek_skip; exact H). now rewrite skip_skip.
Qed.
Lemma hrcopy_stack k n arg res : forall q (T : rows) F A hs s1, peek (n * k) hs s1 ->
  @hrcopy K k n arg res q T F A hs =
  let '(T', F', A', _) := @hrcopy K k n arg res q T F A s1 in (T', F', A', skipn (n * k) hs).
Proof.
  induction n as [|n IH]; intros q T F A hs s1 H; cbn [hrcopy Nat.mul]; auto.
  set (FA := if eqb K (F (res + q)) (zero K) then (F, A) else _). destruct FA as [F' A'].
  rewrite (@gettayl_stack k (res + q) T hs s1) by (intros i I; apply H; cbn; lia).
  destruct (@gettayl K k (res + q) T s1) as [T' st'] eqn:E. cbn [fst].
  assert (st' = skipn k s1) as -> by (unfold gettayl in E; congruence).
  rewrite (IH (S q) T' F' A' _ (skipn k s1)) by (apply peek_skip; exact H). 
  destruct (hrcopy k n arg res (S q) T' F' A' (skipn k s1)) as [[[T2 F2] A2] st2]. now rewrite skip_skip.
Qed.
Lemma hraxpy_stack k n arg a1 a2 res : forall q (T : rows) F A hs s1, peek (n * k) hs s1 ->
  @hraxpy K k n arg a1 a2 res q T F A hs =
  let '(T', F', A', _) := @hraxpy K k n arg a1 a2 res q T F A s1 in (T', F', A', skipn (n * k) hs).
Proof.
  induction n as [|n IH]; intros q T F A hs s1 H; cbn [hraxpy Nat.mul]; auto.
  cbv zeta. set (FA := if eqb K (F (res + q)) (zero K) then (F, A) else _). destruct FA as [F' A'].
  rewrite (@gettayl_stack k (res + q) T hs s1) by (intros i I; apply H; cbn; lia).
  destruct (@gettayl K k (res + q) T s1) as [T' st'] eqn:E. cbn [fst].
  assert (st' = skipn k s1) as -> by (unfold gettayl in E; congruence).
  rewrite (IH (S q) T' F' A' _ (skipn k s1)) by (apply peek_skip; exact H). 
  destruct (hraxpy k n arg a1 a2 res (S q) T' F' A' (skipn k s1)) as [[[T2 F2] A2] st2]. now rewrite skip_skip.
Qed.

(* the operation depends on the stack only through the numbers it takes *)
Lemma hrval_stack k b (T : rows) F A hs s1 : peek (frames b * k) hs s1 ->
  @hrval K eps k b T F A hs =
  match @hrval K eps k b T F A s1 with
  | Some (T', F', A', _) => Some (T', F', A', skipn (frames b * k) hs) | None => None end.
Proof.
  intros H. 
  assert (G : forall res, frames b = 1 -> @gettayl K k res T hs = (fst (@gettayl K k res T s1), skipn (frames b * k) hs)).
  { intros res E. rewrite E in *. rewrite (@gettayl_stack k res T hs s1), Nat.mul_1_l; auto. intros i I. apply H. lia. }
  assert (G' : forall res, @gettayl K k res T s1 = (fst (@gettayl K k res T s1), skipn k s1)) by reflexivity.
  assert (N0 : frames b = 0 -> skipn (frames b * k) hs = hs) by (intros ->; reflexivity).
  assert (G2 : forall r1 r2, frames b = 2 ->
     (let (T1, st1) := @gettayl K k r1 T hs in @gettayl K k r2 T1 st1) =
     (fst (let (T1, st1) := @gettayl K k r1 T s1 in @gettayl K k r2 T1 st1), skipn (frames b * k) hs)).
  { intros r1 r2 E. rewrite E in *. rewrite (@gettayl_stack k r1 T hs s1) by (intros i I; apply H; lia).
    rewrite (G' r1). cbn [fst]. rewrite (@gettayl_stack k r2 _ (skipn k hs) (skipn k s1)).
    - f_equal. rewrite skip_skip. f_equal. lia.
    - apply peek_skip. intros i I. apply H. lia. }
  destruct b; cbn [hrval]; cbv zeta;
    try (rewrite (G res eq_refl), (G' res)); cbn [fst snd]; try (rewrite (N0 eq_refl)); auto;
    try (repeat match goal with |- context [match ?c with _ => _ end] =>
           lazymatch c with
           | context [match _ with _ => _ end] => fail
           | _ => destruct c
           end end; reflexivity).
  - destruct (if eqb K (F res) (zero K) then _ else _) as [F' A']. pose proof (G2 res a2 eq_refl) as Q.
    rewrite (G' res) in *. destruct (@gettayl K k res T hs) as [T1 st1]. 
    destruct (@gettayl K k a2 T1 st1) as [T2 st2]. destruct (@gettayl K k a2 _ (skipn k s1)) as [T3 st3].
    cbn [fst] in Q. congruence.
  - destruct (if eqb K (F res) (zero K) then _ else _) as [F' A']. pose proof (G2 res a2 eq_refl) as Q.
    rewrite (G' res) in *. destruct (@gettayl K k res T hs) as [T1 st1]. 
    destruct (@gettayl K k a2 T1 st1) as [T2 st2]. destruct (@gettayl K k a2 _ (skipn k s1)) as [T3 st3].
    cbn [fst] in Q. congruence.
  - rewrite (@hrcopy_stack k size arg res 0 T F A hs s1 H). cbn [frames]. destruct (hrcopy _ _ _ _ _ _ _ _ s1) as [[[T2 F2] A2] st2]. reflexivity.
  - rewrite (@hraxpy_stack k size arg a1 a2 res 0 T F A hs s1 H). cbn [frames]. destruct (hraxpy _ _ _ _ _ _ _ _ _ _ s1) as [[[T2 F2] A2] st2]. reflexivity.
  - destruct (hrzero _ _ _ _ _) as [F' A']. cbn [frames] in *. rewrite (@gettayl_up_stack k (S a2 - a1) a1 T hs s1 H).
    destruct (@gettayl_up K k (S a2 - a1) a1 T s1) as [T' st']. reflexivity.
Qed.

(* ------------------------------------------------------------------ *)
(* the stack                                                             *)

Definition slot (p k l r : nat) : nat := if r <? k - 1 then (p - 1 - l) * (k - 1) + r else p * (k - 1).
Definition Stk (p k l : nat) (ws hs : list val) : Prop := forall f r, r < k ->
  nth (f * k + r) hs (zero K) = nth (f * (1 + p * (k - 1)) + slot p k l r) ws (zero K).
Lemma stk_pop p k l n ws hs : Stk p k l ws hs -> Stk p k l (skipn (n * (1 + p * (k - 1))) ws) (skipn (n * k) hs).
Proof.
  intros H f r R. rewrite !nth_skip. specialize (H (n + f) r R). 
  rewrite !Nat.mul_add_distr_r in H. rewrite !Nat.add_assoc. exact H.
Qed.
Lemma proj_length p k l n : 0 < k -> forall st, length (@vproj K p k l n st) = n * k.
Proof. intros Hk. induction n as [|n IH]; intros st; cbn [vproj]; auto. rewrite !app_length, map_length, seq_length, IH. cbn [length]. lia. Qed.
Lemma proj_nth p k l : 0 < k -> forall n st f r, f < n -> r < k ->
  nth (f * k + r) (@vproj K p k l n st) (zero K) = nth (f * (1 + p * (k - 1)) + slot p k l r) st (zero K).
Proof.
  intros Hk. induction n as [|n IH]; intros st f r Hf Hr; [lia|]. cbn [vproj].
  set (hd := map _ _). assert (Lh : length hd = k - 1) by (unfold hd; now rewrite map_length, seq_length).
  destruct f as [|f].
  - cbn [Nat.mul Nat.add]. unfold slot. destruct (Nat.ltb_spec r (k - 1)).
    + rewrite app_nth1 by lia. unfold hd. 
      rewrite nth_indep with (d' := nth ((p - 1 - l) * (k - 1) + (k - 1)) st (zero K)) by (rewrite map_length, seq_length; lia).
      rewrite (map_nth (fun i => nth ((p - 1 - l) * (k - 1) + i) st (zero K)) (seq 0 (k - 1)) (k - 1) r).
      rewrite seq_nth by lia. reflexivity.
    + rewrite app_nth2 by lia. replace (r - length hd) with 0 by lia. reflexivity.
  - rewrite app_nth2 by (rewrite Lh; nia). rewrite Lh. 
    rewrite app_nth2 by (cbn [length]; nia). cbn [length].
    replace (S f * k + r - (k - 1) - 1) with (f * k + r) by nia.
    rewrite IH, nth_skip by lia. f_equal. cbn. lia.
Qed.
Lemma stk_peek p k l n ws hs : 0 < k -> Stk p k l ws hs -> peek (n * k) hs (@vproj K p k l n ws).
Proof.
  intros Hk H i I. pose proof (Nat.div_mod i k ltac:(lia)) as D. pose proof (Nat.mod_upper_bound i k ltac:(lia)) as M.
  rewrite D, (Nat.mul_comm k). rewrite proj_nth; auto. apply Nat.div_lt_upper_bound; lia.
Qed.

(* ------------------------------------------------------------------ *)
(* flags and base values do not depend on the direction                  *)

Definition sbase (k n : nat) (a b : list val) : Prop := forall f, f < n -> nth (f * k + (k - 1)) a (zero K) = nth (f * k + (k - 1)) b (zero K).
Lemma proj_base p k l l' n st : 0 < k -> sbase k n (@vproj K p k l n st) (@vproj K p k l' n st).
Proof.
  intros Hk f I. rewrite !proj_nth by lia. unfold slot. destruct (Nat.ltb_spec (k - 1) (k - 1)); [lia|reflexivity].
Qed.
Definition tbase (T T2 : rows) : Prop := forall loc, T loc 0 = T2 loc 0.
Lemma gettayl_base k res (T T2 : rows) a b : 0 < k -> tbase T T2 -> nth (k - 1) a (zero K) = nth (k - 1) b (zero K) ->
  tbase (fst (@gettayl K k res T a)) (fst (@gettayl K k res T2 b)).
Proof.
  intros Hk HT E loc. unfold gettayl, setrow. cbn [fst]. destruct (Nat.eqb loc res); cbn [andb]; [|apply HT].
  destruct (Nat.ltb_spec 0 k); [|lia]. rewrite Nat.sub_0_r. exact E.
Qed.
Lemma sbase_skip k n a b : sbase k (S n) a b -> sbase k n (skipn k a) (skipn k b).
Proof. intros H f I. rewrite !nth_skip, !Nat.add_assoc. apply (H (S f)). lia. Qed.
Lemma gettayl_up_base k n : 0 < k -> forall j (T T2 : rows) a b, tbase T T2 -> sbase k n a b ->
  tbase (fst (@gettayl_up K k n j T a)) (fst (@gettayl_up K k n j T2 b)).
Proof.
  intros Hk. induction n as [|n IH]; intros j T T2 a b HT H; cbn [gettayl_up]; auto.
  pose proof (@gettayl_base k j T T2 a b Hk HT (H 0 ltac:(lia))) as Q.
  apply sbase_skip in H. unfold gettayl in *. cbn [fst] in *. apply IH; auto.
Qed.
Definition FofT (r : rows * vmem * rows * list val) : rows * vmem := fst (fst r).
Lemma hrcopy_base k n arg res : 0 < k -> forall q (T T2 : rows) F A A2 a b, tbase T T2 -> sbase k n a b ->
  tbase (fst (FofT (@hrcopy K k n arg res q T F A a))) (fst (FofT (@hrcopy K k n arg res q T2 F A2 b))) /\
  snd (FofT (@hrcopy K k n arg res q T F A a)) = snd (FofT (@hrcopy K k n arg res q T2 F A2 b)).
Proof.
  intros Hk. induction n as [|n IH]; intros q T T2 F A A2 a b HT H; cbn [hrcopy]; auto.
  pose proof (@gettayl_base k (res + q) T T2 a b Hk HT (H 0 ltac:(lia))) as Q. apply sbase_skip in H.
  destruct (eqb K (F (res + q)) (zero K)); unfold gettayl in *; cbn [fst] in Q; apply IH; auto.
Qed.
Lemma hraxpy_base k n arg a1 a2 res : 0 < k -> forall q (T T2 : rows) F A A2 a b, tbase T T2 -> sbase k n a b ->
  tbase (fst (FofT (@hraxpy K k n arg a1 a2 res q T F A a))) (fst (FofT (@hraxpy K k n arg a1 a2 res q T2 F A2 b))) /\
  snd (FofT (@hraxpy K k n arg a1 a2 res q T F A a)) = snd (FofT (@hraxpy K k n arg a1 a2 res q T2 F A2 b)).
Proof.
  intros Hk. induction n as [|n IH]; intros q T T2 F A A2 a b HT H; cbn [hraxpy]; auto.
  pose proof (@gettayl_base k (res + q) T T2 a b Hk HT (H 0 ltac:(lia))) as Q. apply sbase_skip in H.
  destruct (eqb K (F (res + q)) (zero K)); unfold gettayl in *; cbn [fst] in Q; cbv zeta; apply IH; auto.
Qed.
Lemma hrdot_flags k n a1 a2 res : forall q (T T2 : rows) F A A2,
  fst (@hrdot K k n a1 a2 res q T F A) = fst (@hrdot K k n a1 a2 res q T2 F A2).
Proof.
  induction n as [|n IH]; intros q T T2 F A A2; cbn [hrdot]; auto.
  destruct (eqb K (F res) (zero K)); cbv zeta; apply IH.
Qed.
Lemma hrzero_flags k n : forall j F (A A2 : rows), fst (@hrzero K k n j F A) = fst (@hrzero K k n j F A2).
Proof. induction n as [|n IH]; intros j F A A2; cbn [hrzero]; auto. Qed.
Lemma inconv_base op k a1 a2 res (T : rows) : 0 < k -> forall loc,
  @inconv_ K op k (fun T => T a1) (fun T => T a2) res T loc 0 =
  if Nat.eqb loc res then op (T res 0) (mul K (T a1 0) (T a2 0)) else T loc 0.
Proof.
  intros Hk loc. unfold inconv_. destruct k as [|n]; [lia|]. clear Hk. revert T.
  induction n as [|n IH]; intros T.
  - cbn [dn]. unfold put, mulsum. cbn [up]. destruct (Nat.eqb loc res); reflexivity.
  - change (dn (S (S n)) ?f T) with (dn (S n) f (f (S n) T)). rewrite IH. 
    unfold put. rewrite !andb_false_r. reflexivity.
Qed.

(* min: the values differ *)
Definition minsure (k : nat) (b : bop K) (T : rows) (st : list val) : Prop :=
  match b with
  | MinOp a1 a2 res _ => let T' := fst (@gettayl K k res T st) in
      ltb K (T' a2 0) (T' a1 0) || ltb K (T' a1 0) (T' a2 0) = true
  | _ => True
  end.
Lemma hrval_flags k b (T T2 : rows) F A A2 a c : 0 < k -> tbase T T2 -> sbase k (frames b) a c -> minsure k b T a ->
  match @hrval K eps k b T F A a, @hrval K eps k b T2 F A2 c with
  | Some (T', F', A', _), Some (T2', F2', A2', _) => tbase T' T2' /\ F' = F2' 
  | None, None => True
  | _, _ => False
  end.
Proof.
  intros Hk HT HS Mn.
  assert (G : forall res, frames b = 1 -> exists t1 t2, tbase t1 t2 /\ @gettayl K k res T a = (t1, skipn k a) /\ @gettayl K k res T2 c = (t2, skipn k c)).
  { intros res E. exists (fst (@gettayl K k res T a)), (fst (@gettayl K k res T2 c)). split; [|auto].
    apply gettayl_base; auto. rewrite E in HS. apply (HS 0). lia. }
  Local Ltac onegettayl G res := let t1 := fresh "t1" in let t2 := fresh "t2" in let B := fresh "B" in let E1 := fresh "E1" in let E2 := fresh "E2" in
    destruct (G res eq_refl) as (t1 & t2 & B & E1 & E2); cbn [hrval]; cbv zeta; rewrite E1, E2.
  destruct b;
    try (onegettayl G res; destruct (eqb K (F res) (zero K)); split; auto; fail);
    try (cbn [hrval]; auto; fail).
  - cbn [hrval]; cbv zeta. destruct (eqb K (F res) (zero K)); (split; [|reflexivity]); intros loc; rewrite !inconv_base by auto; rewrite !HT; reflexivity.
  - cbn [hrval]; cbv zeta. destruct (eqb K (F res) (zero K)); (split; [|reflexivity]); intros loc; rewrite !inconv_base by auto; rewrite !HT; reflexivity.
  - cbn [hrval]; cbv zeta. pose proof (@gettayl_base k res T T2 a c Hk HT (HS 0 ltac:(cbn; lia))) as Q1.
    pose proof (HS 1 ltac:(cbn; lia)) as Q2. rewrite Nat.mul_1_l in Q2.
    destruct (eqb K (F res) (zero K)); unfold gettayl in *; cbn [fst] in Q1; (split; [|reflexivity]);
    apply (@gettayl_base k a2 _ _ (skipn k a) (skipn k c) Hk Q1); rewrite !nth_skip; exact Q2.
  - cbn [hrval]; cbv zeta. pose proof (@gettayl_base k res T T2 a c Hk HT (HS 0 ltac:(cbn; lia))) as Q1.
    pose proof (HS 1 ltac:(cbn; lia)) as Q2. rewrite Nat.mul_1_l in Q2.
    destruct (eqb K (F res) (zero K)); unfold gettayl in *; cbn [fst] in Q1; (split; [|reflexivity]);
    apply (@gettayl_base k a2 _ _ (skipn k a) (skipn k c) Hk Q1); rewrite !nth_skip; exact Q2.
  - cbn [minsure] in Mn. onegettayl G res. rewrite E1 in Mn. cbn [fst] in Mn.
    unfold minpick. rewrite <- !B in *. destruct (ltb K (t1 a2 0) (t1 a1 0)); [destruct (eqb K (F res) (zero K)); split; auto|].
    cbn [orb] in Mn. rewrite Mn. destruct (eqb K (F res) (zero K)); split; auto.
  - onegettayl G res. rewrite <- !B. destruct (abspick k arg t1) as [xx jj], (abspick k arg t2) as [xx' jj'].
    destruct (eqb K (F res) (zero K)); split; auto.
  - onegettayl G res. rewrite <- !B. destruct (ltb K (zero K) (t1 arg 0)).
    + destruct (Nat.eqb res a1); [split; auto|]. destruct (eqb K (F res) (zero K)); split; auto.
    + destruct (Nat.eqb res a2); destruct (eqb K (F res) (zero K)); split; auto.
  - onegettayl G res. rewrite <- !B. destruct (Nat.eqb res _); [split; auto|]. destruct (eqb K (F res) (zero K)); split; auto.
  - onegettayl G res. rewrite <- !B. destruct (eqb K (t1 arg 0) (zero K)); [destruct (eqb K (F res) (zero K)); split; auto|].
    destruct (ltb K (zero K) (t1 arg 0)); [|split; auto].
    destruct (Nat.eqb res a1); [split; auto|]. destruct (eqb K (F res) (zero K)); split; auto.
  - onegettayl G res. rewrite <- !B. destruct (leb K (zero K) (t1 arg 0)); [|split; auto].
    destruct (Nat.eqb res a1); [split; auto|]. destruct (eqb K (F res) (zero K)); split; auto.
  - cbn [hrval]. destruct (@hrcopy_base k size arg res Hk 0 T T2 F A A2 a c HT HS) as [Q1 Q2].
    destruct (hrcopy _ _ _ _ _ T F A a) as [[[x1 x2] x3] x4], (hrcopy _ _ _ _ _ T2 F A2 c) as [[[y1 y2] y3] y4]. split; auto.
  - onegettayl G res. pose proof (@hrdot_flags k size a1 a2 res 0 T T2 F A A2) as Q.
    destruct (hrdot _ _ _ _ _ _ T F A), (hrdot _ _ _ _ _ _ T2 F A2). split; auto.
  - cbn [hrval]. destruct (@hraxpy_base k size arg a1 a2 res Hk 0 T T2 F A A2 a c HT HS) as [Q1 Q2].
    destruct (hraxpy _ _ _ _ _ _ _ T F A a) as [[[x1 x2] x3] x4], (hraxpy _ _ _ _ _ _ _ T2 F A2 c) as [[[y1 y2] y3] y4]. split; auto.
  - cbn [hrval]. pose proof (@hrzero_flags k size res F A A2) as Q.
    destruct (hrzero _ _ _ F A), (hrzero _ _ _ F A2). split; auto.
  - cbn [hrval]. pose proof (@hrzero_flags k (S a2 - a1) a1 F A A2) as Q.
    pose proof (@gettayl_up_base k (S a2 - a1) Hk a1 T T2 a c HT HS) as Q2.
    destruct (hrzero _ _ _ F A), (hrzero _ _ _ F A2).
    destruct (gettayl_up _ _ _ T a), (gettayl_up _ _ _ T2 c). split; auto.
Qed.

(* ------------------------------------------------------------------ *)
(* the pointers into rpp_T                                               *)

Definition uniform (p : nat) (T : fam rows) (F : fam vmem) : Prop :=
  forall l, l < p -> F l = F 0 /\ tbase (T l) (T 0).
Lemma live_dead p T F res l : @uniform p T F -> l <= p -> eqb K (F 0 res) (zero K) = true -> @live K F res l = 0.
Proof.
  intros U L E. unfold live. induction l as [|l IH]; auto. rewrite seq_S, filter_app, app_length. rewrite IH by lia.
  cbn [filter Nat.add]. rewrite (proj1 (U l ltac:(lia))), E. reflexivity.
Qed.
Lemma live_all p T F res l : @uniform p T F -> l <= p -> eqb K (F 0 res) (zero K) = false -> @live K F res l = l.
Proof.
  intros U L E. unfold live. induction l as [|l IH]; auto. rewrite seq_S, filter_app, app_length. rewrite IH by lia.
  cbn [filter Nat.add]. rewrite (proj1 (U l ltac:(lia))), E. cbn. lia.
Qed.
Lemma hrdot_dead k n a1 a2 res : forall q (T : rows) F A, eqb K (F res) (zero K) = true ->
  @hrdot K k n a1 a2 res q T F A = (F, A).
Proof. induction n as [|n IH]; intros q T F A E; cbn [hrdot]; auto. rewrite E. now apply IH. Qed.

(* what the adjoint part computes with the pointers where they stand is what the
   direction computes with its own rows *)
Definition sameadj (x y : option (rows * vmem * rows * list val)) : Prop :=
  match x, y with
  | Some (_, F, A, _), Some (_, F', A', _) => F = F' /\ A = A'
  | None, None => True
  | _, _ => False
  end.
Lemma sameadj_refl x : sameadj x x.
Proof. destruct x as [[[[? ?] ?] ?]|]; cbn; auto. Qed.
Lemma adj_own p k b T F (A : rows) st l : 0 < k -> l < p -> @uniform p T F -> minsure k b (T 0) (@vproj K p k 0 (frames b) st) ->
  sameadj (@hrval K eps k b (T (vsrc b F l)) (F l) A (@vproj K p k (vsrc b F l) (frames b) st))
          (@hrval K eps k b (T l) (F l) A (@vproj K p k l (frames b) st)).
Proof.
  intros Hk L U Mn. assert (Hl : l <= p) by lia.
  assert (Dead : forall res, vsrc b F l = @live K F res l ->
     (eqb K (F 0 res) (zero K) = true -> forall T1 T2 s1 s2, sameadj (@hrval K eps k b T1 (F l) A s1) (@hrval K eps k b T2 (F l) A s2)) ->
     sameadj (@hrval K eps k b (T (vsrc b F l)) (F l) A (@vproj K p k (vsrc b F l) (frames b) st))
          (@hrval K eps k b (T l) (F l) A (@vproj K p k l (frames b) st))).
  { intros res E Q. destruct (eqb K (F 0 res) (zero K)) eqn:Z; [now apply Q|].
    rewrite E, (live_all _ U Hl Z). apply sameadj_refl. }
  assert (Fl : F l = F 0) by apply (U l L).
  assert (B0 : tbase (T 0) (T l)) by (intros loc; symmetry; apply (U l L)).
  assert (G : forall res, frames b = 1 -> exists t1 t2, tbase t1 t2 /\ @gettayl K k res (T 0) (@vproj K p k 0 (frames b) st) = (t1, skipn k (@vproj K p k 0 (frames b) st)) /\ @gettayl K k res (T l) (@vproj K p k l (frames b) st) = (t2, skipn k (@vproj K p k l (frames b) st))).
  { intros res E. eexists _, _. split; [|split; reflexivity].
    refine (@gettayl_base k res (T 0) (T l) (@vproj K p k 0 (frames b) st) (@vproj K p k l (frames b) st) Hk B0 _). 
    rewrite E. apply (@proj_base p k 0 l 1 st Hk 0). lia. }
  destruct b; cbn [vsrc]; try apply sameadj_refl;
    try (apply (Dead res eq_refl); rewrite Fl; intros Z T1 T2 s1 s2; cbn [hrval]; cbv zeta; rewrite Z; unfold gettayl; cbn; auto; fail).
  - destruct (G res eq_refl) as (t1 & t2 & B & E1 & E2). cbn [minsure] in Mn. cbv zeta in Mn. rewrite E1 in Mn. cbn [fst] in Mn.
    cbn [hrval]; cbv zeta. rewrite E1, E2. unfold minpick. rewrite <- !B in *. destruct (ltb K (t1 a2 0) (t1 a1 0)); [destruct (eqb K (F l res) (zero K)); split; auto|].
    cbn [orb] in Mn. rewrite Mn. destruct (eqb K (F l res) (zero K)); split; auto.
  - destruct (G res eq_refl) as (t1 & t2 & B & E1 & E2). cbn [hrval]; cbv zeta. rewrite E1, E2. rewrite <- !B.
    destruct (if ltb K (zero K) (t1 arg 0) then _ else _) as [F' A']. split; auto.
  - destruct (G res eq_refl) as (t1 & t2 & B & E1 & E2). cbn [hrval]; cbv zeta. rewrite E1, E2. rewrite <- !B.
    destruct (if Nat.eqb res _ then _ else _) as [F' A']. split; auto.
  - destruct (G res eq_refl) as (t1 & t2 & B & E1 & E2). cbn [hrval]; cbv zeta. rewrite E1, E2. rewrite <- !B.
    destruct (if eqb K (t1 arg 0) _ then _ else _) as [F' A']. split; auto.
  - destruct (G res eq_refl) as (t1 & t2 & B & E1 & E2). cbn [hrval]; cbv zeta. rewrite E1, E2. rewrite <- !B.
    destruct (if leb K _ (t1 arg 0) then _ else _) as [F' A']. split; auto.
  - apply (Dead res eq_refl). rewrite Fl. intros Z T1 T2 s1 s2. cbn [hrval]. rewrite !hrdot_dead by auto. cbn. auto.
Qed.

(* ------------------------------------------------------------------ *)
(* one operation                                                         *)

Definition fine (k : nat) (b : bop K) (T : rows) (F : vmem) (st : list val) : Prop :=
  match b with
  | EqPlusProd _ _ res | EqMinProd _ _ res => eqb K (F res) (zero K) = false
  | VecAxpy _ _ _ _ _ => False
  | FloorOp _ res _ => eqb K (F res) (zero K) = true
  | MinOp _ _ _ _ => minsure k b T st
  | _ => True
  end.
Lemma fine_min k b T F st : fine k b T F st -> minsure k b T st.
Proof. destruct b; cbn; auto. Qed.

Definition agreeT (p k l : nat) (v : option (fam rows * fam vmem * fam rows * list val))
  (r : option (rows * vmem * rows * list val)) : Prop :=
  match v, r with
  | Some (T', F', A', ws'), Some (t', f', a', hs') => T' l = t' /\ F' l = f' /\ A' l = a' /\ Stk p k l ws' hs'
  | None, None => True
  | _, _ => False
  end.
Definition uniformT (p : nat) (v : option (fam rows * fam vmem * fam rows * list val)) : Prop :=
  match v with Some (T', F', _, _) => @uniform p T' F' | None => True end.

Lemma minsure_base k b (T T2 : rows) a c : 0 < k -> tbase T T2 -> sbase k (frames b) a c -> minsure k b T a -> minsure k b T2 c.
Proof.
  intros Hk HT HS. destruct b; cbn [minsure]; auto. cbv zeta.
  pose proof (@gettayl_base k res T T2 a c Hk HT (HS 0 ltac:(cbn; lia))) as Q. rewrite <- !Q. auto.
Qed.
Lemma forallb_seq f p : (forall l, l < p -> f l = true) -> forallb f (seq 0 p) = true.
Proof. intros H. apply forallb_forall. intros x Hx. apply in_seq in Hx. apply H. lia. Qed.

Lemma vloop_dir p k b T F A st : 0 < k -> 0 < p -> @uniform p T F ->
  minsure k b (T 0) (@vproj K p k 0 (frames b) st) ->
  match @vloop K eps p k b T F A st with
  | Some (T', F', A') => @uniform p T' F' /\
      forall l, l < p -> exists s, @hrval K eps k b (T l) (F l) (A l) (@vproj K p k l (frames b) st) = Some (T' l, F' l, A' l, s)
  | None => forall l, l < p -> @hrval K eps k b (T l) (F l) (A l) (@vproj K p k l (frames b) st) = None
  end.
Proof.
  intros Hk Hp U Mn.
  set (own l := @hrval K eps k b (T l) (F l) (A l) (@vproj K p k l (frames b) st)).
  set (adj l := @hrval K eps k b (T (vsrc b F l)) (F l) (A l) (@vproj K p k (vsrc b F l) (frames b) st)).
  assert (@vloop K eps p k b T F A st = if forallb (fun l => some (own l) && some (adj l)) (seq 0 p)
    then Some (fun l => if Nat.ltb l p then oT (own l) (T l) else T l,
               fun l => if Nat.ltb l p then oF (adj l) (F l) else F l,
               fun l => if Nat.ltb l p then oA (adj l) (A l) else A l)
    else None) as -> by reflexivity.
  assert (AO : forall l, l < p -> sameadj (adj l) (own l)) by (intros l L; apply adj_own; auto).
  assert (OO : forall l, l < p -> match own l, own 0 with
     | Some (T', F', A', _), Some (T2', F2', A2', _) => tbase T' T2' /\ F' = F2' | None, None => True | _, _ => False end).
  { intros l L. unfold own. destruct (U l L) as [E1 E2]. rewrite E1. apply hrval_flags; auto.
    - now apply proj_base.
    - eapply minsure_base; [exact Hk| | |exact Mn]; [intros loc; symmetry; apply E2|now apply proj_base]. }
  destruct (own 0) as [[[[t0 f0] a0] s0]|] eqn:E0.
  - assert (forallb (fun l => some (own l) && some (adj l)) (seq 0 p) = true) as ->.
    { apply forallb_seq. intros l L. specialize (AO l L). specialize (OO l L).
      destruct (own l) as [[[[t f] a] s]|]; [|destruct OO]. destruct (adj l) as [[[[t' f'] a'] s']|]; [reflexivity|destruct AO]. }
    split.
    + intros l L. rewrite (proj2 (Nat.ltb_lt l p) L), (proj2 (Nat.ltb_lt 0 p) Hp).
      pose proof (AO l L) as A1. pose proof (AO 0 Hp) as A2. specialize (OO l L). rewrite E0 in *.
      destruct (own l) as [[[[t f] a] s]|]; [|destruct OO]. destruct (adj l) as [[[[t' f'] a'] s']|]; [|destruct A1].
      destruct (adj 0) as [[[[t2 f2] a2] s2]|]; [|destruct A2]. cbn in *. destruct OO, A1, A2. split; [congruence|auto].
    + intros l L. rewrite (proj2 (Nat.ltb_lt l p) L). pose proof (AO l L) as A1. specialize (OO l L).
      fold (own l). destruct (own l) as [[[[t f] a] s]|]; [|destruct OO]. destruct (adj l) as [[[[t' f'] a'] s']|]; [|destruct A1].
      cbn in *. destruct A1 as [<- <-]. eauto.
  - assert (forallb (fun l => some (own l) && some (adj l)) (seq 0 p) = false) as ->.
    { apply not_true_iff_false. intros Q. rewrite forallb_forall in Q. specialize (Q 0 ltac:(apply in_seq; lia)). rewrite E0 in Q. discriminate. }
    intros l L. specialize (OO l L). fold (own l). destruct (own l) as [[[[t f] a] s]|]; [destruct OO|reflexivity].
Qed.

Lemma prod_some k b (T : rows) F A st : match b with EqPlusProd _ _ _ | EqMinProd _ _ _ => True | _ => False end ->
  exists r, @hrval K eps k b T F A st = Some r /\ snd r = st /\ forall st', exists r', @hrval K eps k b T F A st' = Some r' /\ fst r' = fst r.
Proof.
  intros H. destruct b; try contradiction; cbn [hrval]; cbv zeta;
  destruct (if eqb K (F res) (zero K) then _ else _) as [F' A']; eexists; (split; [reflexivity|]); (split; [reflexivity|]); intros st'; eexists; (split; reflexivity).
Qed.
Lemma vprod_dir p k b res T F A : @uniform p T F -> eqb K (F 0 res) (zero K) = false ->
  forall n, n <= p -> forall l,
  let '(T', F', A') := up n (fun l (s : fam rows * fam vmem * fam rows) =>
    let '(Tn, Fn, An) := s in
    let t := live F res l in
    let r := hrval eps k b (Tn t) (F l) (A l) [] in
    (updd Tn t (oT r (Tn t)), updd Fn l (oF r (F l)), updd An l (oA r (A l)))) (T, F, A) in
  let r := @hrval K eps k b (T l) (F l) (A l) [] in
  if l <? n then T' l = oT r (T l) /\ F' l = oF r (F l) /\ A' l = oA r (A l)
  else T' l = T l /\ F' l = F l /\ A' l = A l.
Proof.
  intros U Z. induction n as [|n IH]; intros Hn l; cbn [up].
  - destruct (Nat.ltb_spec l 0); [lia|auto].
  - cbv zeta in IH |- *. destruct (up n _ _) as [[Tn Fn] An]. rewrite (@live_all p T F res n U ltac:(lia) Z). unfold updd.
    pose proof (IH ltac:(lia) n) as Q. rewrite Nat.ltb_irrefl in Q. destruct Q as (Q1 & Q2 & Q3).
    specialize (IH ltac:(lia) l). cbv zeta in *. rewrite Q1.
    destruct (Nat.eqb_spec l n) as [Eq|Ne].
    + subst. match goal with |- if ?c then _ else _ => assert (c = true) as -> by (apply Nat.ltb_lt; lia) end. auto.
    + destruct (Nat.ltb_spec l n), (Nat.ltb_spec l (S n)); try lia; auto.
Qed.

(* Each direction of one operation of hos_ov_reverse is that operation of hos_reverse *)
Lemma vrval_dir p k b T F A ws : 0 < k -> 0 < p -> @uniform p T F ->
  fine k b (T 0) (F 0) (@vproj K p k 0 (frames b) ws) ->
  uniformT p (@vrval K eps p k b T F A ws) /\
  forall l hs, l < p -> Stk p k l ws hs ->
  agreeT p k l (@vrval K eps p k b T F A ws) (@hrval K eps k b (T l) (F l) (A l) hs).
Proof.
  intros Hk Hp U Fi. 
  assert (D : match match @vloop K eps p k b T F A ws with Some (T', F', A') => Some (T', F', A', skipn (frames b * (1 + p * (k - 1))) ws) | None => None end with v =>
     uniformT p v /\ forall l hs, l < p -> Stk p k l ws hs -> agreeT p k l v (@hrval K eps k b (T l) (F l) (A l) hs) end).
  { pose proof (@vloop_dir p k b T F A ws Hk Hp U (fine_min _ _ _ _ _ Fi)) as V.
    destruct (@vloop K eps p k b T F A ws) as [[[T' F'] A']|].
    - destruct V as [V1 V2]. split; [exact V1|]. intros l hs L Hs. destruct (V2 l L) as [s E].
      rewrite (@hrval_stack k b (T l) (F l) (A l) hs (@vproj K p k l (frames b) ws)) by (now apply stk_peek). rewrite E. cbn. 
      repeat (split; [reflexivity|]). now apply stk_pop.
    - split; [exact I|]. intros l hs L Hs. 
      rewrite (@hrval_stack k b (T l) (F l) (A l) hs (@vproj K p k l (frames b) ws)) by (now apply stk_peek). rewrite (V l L). exact I. }
  assert (P : forall res, match b with EqPlusProd _ _ _ | EqMinProd _ _ _ => True | _ => False end -> eqb K (F 0 res) (zero K) = false ->
     match match @vprod K eps p k b res T F A with (T', F', A') => Some (T', F', A', skipn (frames b * (1 + p * (k - 1))) ws) end with v =>
     uniformT p v /\ forall l hs, l < p -> Stk p k l ws hs -> agreeT p k l v (@hrval K eps k b (T l) (F l) (A l) hs) end).
  { intros res Hb Z. pose proof (@vprod_dir p k b res T F A U Z p (Nat.le_refl p)) as Q. unfold vprod.
    destruct (up p _ _) as [[T' F'] A']. assert (Fr : frames b = 0) by (destruct b; try contradiction; reflexivity). rewrite Fr. cbn [Nat.mul skipn].
    assert (Q' : forall l, l < p -> exists r, @hrval K eps k b (T l) (F l) (A l) [] = Some r /\ T' l = oT (Some r) (T l) /\ F' l = oF (Some r) (F l) /\ A' l = oA (Some r) (A l)).
    { intros l L. specialize (Q l). cbv zeta in Q. rewrite (proj2 (Nat.ltb_lt l p) L) in Q.
      destruct (@prod_some k b (T l) (F l) (A l) [] Hb) as (r & E & _). rewrite E in Q. exists r. auto. }
    split.
    - intros l L. destruct (Q' l L) as (r & E & E1 & E2 & E3), (Q' 0 Hp) as (r0 & E' & E1' & E2' & E3').
      pose proof (@hrval_flags k b (T l) (T 0) (F l) (A l) (A 0) [] [] Hk (proj2 (U l L)) ltac:(intros f I; reflexivity)) as W.
      rewrite E in W. rewrite (proj1 (U l L)), E' in W. 
      destruct r as [[[t f] a] s], r0 as [[[t' f'] a'] s']. cbn in *. rewrite E1, E2, E1', E2'.
      assert (W' := W ltac:(destruct b; try contradiction; exact I)). destruct W'. split; auto.
    - intros l hs L Hs. destruct (Q' l L) as (r & E & E1 & E2 & E3).
      destruct (@prod_some k b (T l) (F l) (A l) hs Hb) as (r2 & G1 & G2 & G3). rewrite G1.
      destruct (G3 []) as (r3 & G4 & G5). rewrite E in G4. injection G4 as <-.
      destruct r as [[[t f] a] s], r2 as [[[t' f'] a'] s']. cbn in *. injection G5 as <- <- <-. subst. auto. }
  destruct b; try exact D.
  - unfold vrval. exact (P res I Fi).
  - unfold vrval. exact (P res I Fi).
  - unfold vrval. cbn [fine minsure] in Fi. cbv zeta in Fi |- *. cbn [frames] in Fi. rewrite Fi. exact D.
  - unfold vrval. assert (anyflag p F res = false) as ->; [|exact D].
    unfold anyflag. apply not_true_iff_false. intros Q. apply existsb_exists in Q. destruct Q as (l & L & Q). apply in_seq in L.
    rewrite (proj1 (U l ltac:(lia))) in Q. cbn [fine] in Fi. rewrite Fi in Q. discriminate.
  - destruct Fi.
Qed.
End Any.
