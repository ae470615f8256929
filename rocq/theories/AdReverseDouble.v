(* C15, C16 in double precision: y += a*b is undone by subtracting a*b.      *)
From Coq Require Import List ZArith Bool Arith Lia.
From Flocq Require Import IEEE754.BinarySingleNaN.
Require Import Verif.AdModel Verif.AdRecord Verif.AdSpec Verif.AdReplay Verif.Binary64
  Verif.AdPlain Verif.AdPlainProofs Verif.AdPlainRun Verif.AdProps Verif.AdSelect
  Verif.AdRestore Verif.AdKeep.
Import ListNotations.
Set Implicit Arguments.
Unset Asymmetric Patterns.

Section Double.
Variable M : Libm.
Let K := binary64 M.

(* 2^30 *)
Definition b2_30 : b64 := @B754_finite 53 1024 false 4503599627370496 (-22) eq_refl.
Definition xprod : nat -> b64 := fun i => if Nat.eqb i 0 then b1 else b2_30.

(* y = x0; z = y*y; y += x1*x2; z >>= d   at x = (1, 2^30, 2^30) *)
Definition prod_prog : prog K :=
  Do (CInd K 0) (Do (CInd K 1) (Do (CInd K 2) (Do (CCopy K 0 3)
  (Do (CBin K BMul (Fresh 4) 3 3) (Do (CEqProd K false (Fresh 5) 1 2 3 true)
  (Do (CDep K 4) (Ret K))))))).

(* The gradient of z = x0^2 at x0 = 1 comes out as (0, 0, 0) instead of (2, 0, 0);
   forward mode gives 2. *)
Theorem C15_eq_plus_prod_double_refuted : forall (ps gz : nat -> V K) (g gd gT gA : mem K),
  exists (s : rec K) (m : fstate K),
  @run K ps xprod prod_prog (@start K (fun _ => bz) []) = Some s /\
  @zos_forward K ps xprod g (finish 5 s) = Done m /\
  let t := finish 5 s in
  let r := @fos_reverse K (fun _ => b1) (fi m) (length (fy m)) gT gA gz (fk m) t in
  map (@B2SF 53 1024) [rz r 0; rz r 1; rz r 2] = [B2SF bz; B2SF bz; B2SF bz] /\
  match @fos_forward K ps xprod (fun i => if Nat.eqb i 0 then b1 else bz) g gd t with
  | Some td => map (@B2SF 53 1024) (tyd td) = [B2SF b2]
  | None => False
  end.
Proof.
  intros ps gz g gd gT gA.
  apply (@witness K (run ps xprod prod_prog (@start K (fun _ => bz) []))
    (fun s => zos_forward ps xprod g (finish 5 s))
    (fun s m => let t := finish 5 s in
      let r := @fos_reverse K (fun _ => b1) (fi m) (length (fy m)) gT gA gz (fk m) t in
      map (@B2SF 53 1024) [rz r 0; rz r 1; rz r 2] = [B2SF bz; B2SF bz; B2SF bz] /\
      match @fos_forward K ps xprod (fun i => if Nat.eqb i 0 then b1 else bz) g gd t with
      | Some td => map (@B2SF 53 1024) (tyd td) = [B2SF b2]
      | None => False
      end)).
  vm_compute. auto.
Qed.

(* C16 for doubles: the laws it asks for hold. *)
Theorem C16_double last ps x p (s s' : rec K) D t u gT gA gz :
  okrun ps x p s D -> keep_prog (@scalar K) p ->
  run ps x p s = Some s' -> sops s' = sops s ++ t ->
  let r := fos_reverse u (si s') (length (sy s')) gT gA gz (final_stack last s')
             (t ++ [Plain (DeathNot K 0 last)]) in
  (forall l, l <= last -> rT r l = sT s l) /\ rk r = sk s /\
  rii r = si s /\ rid r = length (sy s).
Proof. apply C16_scalar_recording, binary64_laws. Qed.

(* its hypotheses are met: y = x0*x1; x0 = y - 1 (the input's own variable is
   overwritten), y >>= *)
Definition ex16 : prog K :=
  Do (CInd K 0) (Do (CInd K 1) (Do (CBin K BMul (Fresh 2) 0 1)
  (Do (CCst K KSub (Fresh 3) b1 2) (Do (CAssign K 3 0) (Do (CEqA K EMul 0 2)
  (Do (CDep K 2) (Ret K))))))).
Lemma ex16_plain (ps : nat -> V K) :
  exists q, @plain K ps xprod ex16 (@pstart K (fun _ => bz) []) = Some q /\ pd q = [].
Proof. unfold ex16. repeat pl_step. Qed.
Example ex16_ok (ps : nat -> V K) : keep_prog (@scalar K) ex16 /\
  okrun ps xprod ex16 (@start K (fun _ => bz) []) (stocked []) /\
  exists s', @run K ps xprod ex16 (@start K (fun _ => bz) []) = Some s'.
Proof.
  split; [cbn; tauto|].
  assert (W : @wellbehaved K ps xprod ex16 (@pstart K (fun _ => bz) [])).
  { unfold ex16. repeat wb_step. }
  destruct (@plain_run K (binary64_laws M) ps xprod ex16 (@pstart K (fun _ => bz) [])
    (@start K (fun _ => bz) []) (stocked []) W) as [O R]; try reflexivity; auto.
  { intros l _. reflexivity. }
  split; [exact O|].
  destruct (ex16_plain ps) as (q & E & _). rewrite E in R. destruct R as (s' & R & _). eauto.
Qed.
End Double.
