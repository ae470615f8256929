(** Model of ADOL-C/src/convolut.cpp: the helpers that multiply and divide truncated
    power series.

    The arrays live in one memory (a function from addresses to numbers) and the
    arguments are addresses, so that calls whose arrays overlap are covered.
    Simplifications: double / revreal are real numbers; addresses and dim are natural
    numbers (a negative dim makes every loop empty, like 0, except in recipr, which
    writes c[0] for every dim). *)
From Coq Require Import List Arith Lia Reals.
Import ListNotations.
Local Open Scope R_scope.

Definition mem := nat -> R.
Definition upd (M : mem) (p : nat) (v : R) : mem := fun q => if (q =? p)%nat then v else M q.

(** for (i = dim - 1; i >= 0; i--) body *)
Fixpoint downto (dim : nat) (body : nat -> mem -> mem) (M : mem) : mem :=
  match dim with O => M | S i => downto i body (body i M) end.
(** for (i = 0; i < dim; i++) body *)
Definition upto (l : list nat) (body : nat -> mem -> mem) (M : mem) : mem :=
  fold_left (fun M i => body i M) l M.

(** for (j = 1; j <= i; j++) tmpVal += a[i - j] * b[j], lines 29-30 (and 41, 57, 72,
    85, 101, 115, 128) *)
Definition tail_sum (M : mem) (a b i : nat) (tmp : R) : R :=
  fold_left (fun tmp j => tmp + M (a + (i - j))%nat * M (b + j)%nat) (seq 1 i) tmp.

(** conv, lines 25-34; conv0, 36-45 *)
Definition conv (dim a b c : nat) : mem -> mem :=
  downto dim (fun i M => upd M (c + i) (tail_sum M a b i (M (a + i)%nat * M b))).
Definition conv0 := conv.
(** inconv, lines 52-61; inconv1, 81-90 *)
Definition inconv (dim a b c : nat) : mem -> mem :=
  downto dim (fun i M => upd M (c + i) (M (c + i)%nat + tail_sum M a b i (M (a + i)%nat * M b))).
Definition inconv1 := inconv.
(** inconv0, lines 66-76 *)
Definition inconv0 (dim a b c : nat) : mem -> mem :=
  downto dim (fun i M =>
    let tmp := M (a + i)%nat * M b in
    let M1 := upd M (a + i) 0 in
    upd M1 (c + i) (M1 (c + i)%nat + tail_sum M1 a b i tmp)).
(** deconv, lines 97-106; deconv1, 125-134 *)
Definition deconv (dim a b c : nat) : mem -> mem :=
  downto dim (fun i M => upd M (c + i) (M (c + i)%nat - tail_sum M a b i (M (a + i)%nat * M b))).
Definition deconv1 := deconv.
(** deconv0, lines 111-121 *)
Definition deconv0 (dim a b c : nat) : mem -> mem :=
  downto dim (fun i M =>
    let tmp := M (a + i)%nat * M b in
    let M1 := upd M (a + i) 0 in
    upd M1 (c + i) (M1 (c + i)%nat - tail_sum M1 a b i tmp)).

(** for (j = 0; j < i; j++) c[i] -= c[j] * b[i - j], lines 145-146 and 158-159 *)
Definition sub_lower (b c i : nat) : mem -> mem :=
  upto (seq 0 i) (fun j M => upd M (c + i) (M (c + i)%nat - M (c + j)%nat * M (b + (i - j))%nat)).
(** divide, lines 140-149 *)
Definition divide (dim a b c : nat) (M0 : mem) : mem :=
  let rec := 1 / M0 b in
  upto (seq 0 dim) (fun i M =>
    let M1 := sub_lower b c i (upd M (c + i) (M (a + i)%nat)) in
    upd M1 (c + i) (M1 (c + i)%nat * rec)) M0.
(** recipr, lines 152-162; here [x] is the parameter a *)
Definition recipr (dim : nat) (x : R) (b c : nat) (M0 : mem) : mem :=
  let rec := 1 / M0 b in
  upto (seq 1 (dim - 1)) (fun i M =>
    let M1 := sub_lower b c i (upd M (c + i) 0) in
    upd M1 (c + i) (M1 (c + i)%nat * rec)) (upd M0 c (x * rec)).
(** zeroset, lines 169-173 *)
Definition zeroset (dim a : nat) : mem -> mem :=
  upto (seq 0 dim) (fun i M => upd M (a + i) 0).
(** copyAndZeroset, lines 178-184 *)
Definition copyAndZeroset (dim a tmp : nat) : mem -> mem :=
  upto (seq 0 dim) (fun i M => let M1 := upd M (tmp + i) (M (a + i)%nat) in upd M1 (a + i) 0).
