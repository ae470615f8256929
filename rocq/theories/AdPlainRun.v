(* Whole programs: traced run and plain run agree. *)
Require Import List ZArith Bool Arith Lia.
Require Import Verif.AdModel Verif.AdRecord Verif.AdSpec Verif.AdReplay Verif.AdPlain
  Verif.AdPlainProofs.
Import ListNotations.
Set Implicit Arguments.

Section Run.
Variable K : Arith.
Variable L : Laws K.

Lemma plain_run ps x p : forall (q : pst K) (s : rec K) (Dt : nat -> Prop),
  wellbehaved ps x p q ->
  agree (pD q) (sT s) (pT q) -> si s = pi q -> sy s = py q -> sd s = pd q ->
  (forall l, pD q l -> Dt l) ->
  okrun ps x p s Dt /\
  match plain ps x p q with
  | Some q' => exists s', run ps x p s = Some s' /\ si s' = pi q' /\
      sy s' = py q' /\ sd s' = pd q' /\ agree (pD q') (sT s') (pT q')
  | None => run ps x p s = None
  end.
Proof.
  induction p as [|c p IH|r a pt IHt pf IHf]; intros q s Dt W A Ei Ey Ed Hd; simpl in *.
  - split; [exact I|]. exists s. auto.
  - destruct W as (W1 & W2 & W3 & W4 & W5).
    destruct (@call_plain K L ps x c q s Dt (fun s' D' => okrun ps x p s' D') W1 W2 W3 W4 A Ei Hd)
      as [Hc Hm].
    destruct (meaning ps x (pi q) (pT q) c) as [T'|].
    + destruct Hm as (s' & E & Ei' & Ey' & Ed' & A' & Ok).
      assert (G : forall D' : nat -> Prop, (forall l, pD (pnext c T' q) l -> D' l) ->
        okrun ps x p s' D' /\
        match plain ps x p (pnext c T' q) with
        | Some q' => exists s'0, run ps x p s' = Some s'0 /\ si s'0 = pi q' /\
            sy s'0 = py q' /\ sd s'0 = pd q' /\ agree (pD q') (sT s'0) (pT q')
        | None => run ps x p s' = None
        end).
      { intros D' HD'. apply IH; auto.
        - simpl. congruence. - simpl. congruence. }
      split.
      * split; auto. apply Ok. intros D' HD'. apply (G D' HD').
      * rewrite E. apply (G (pD (pnext c T' q))). auto.
    + destruct Hm as [E Ok]. rewrite E. auto.
  - destruct W as (Wa & Wo & W).
    assert (Ea : sT s a = pT q a) by auto.
    rewrite Ea.
    assert (Hb : sd (rcmp r a s) = pd (pcmp r a q)).
    { unfold rcmp, pcmp. cbn [sd pd]. rewrite Ed. f_equal. f_equal. rewrite Ea. symmetry. apply truth_rel. }
    pose proof (truth_rel K r (pT q a)) as Et. rewrite <- Et.
    destruct (truth K r (pT q a)).
    + destruct (IHt (pcmp r a q) (rcmp r a s) Dt W) as [O1 O2]; [auto..|].
      split; [split; [|split]; auto|exact O2].
    + destruct (IHf (pcmp r a q) (rcmp r a s) Dt W) as [O1 O2]; [auto..|].
      split; [split; [|split]; auto|exact O2].
Qed.
End Run.
