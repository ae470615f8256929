(** Model of coeff and tensor_eval, ADOL-C/src/drivers/taylor.cpp, in real
    arithmetic.

    Simplifications (all of them):
    - double and long double are real numbers;
    - loops without a static bound take a number of steps [fuel] and return [None] if
      that does not suffice; a null pointer access is also [None];
    - hov_forward / fov_forward are a parameter [hov]: for a list of directions (each
      a list of n numbers), coefficient of order r of dependent j along the k-th of
      them; zos_forward is the parameter [zos];
    - the return code and the deallocations are not modelled. *)
From Coq Require Import List Arith Bool Lia Reals.
From Verif Require Import TnModel.
Import ListNotations.
Local Open Scope R_scope.

(** struct item, taylor.cpp:27-32 (the list structure is a Coq list) *)
Record item := mkItem { ia : nat; ib : nat; ic : R }.

(** dbinomi, taylor.cpp:132-138 *)
Definition dbinomi (a : R) (b : nat) : R :=
  fold_left (fun result i => result * ((a - INR i + 1) / INR i)) (seq 1 b) 1.

(** summand, taylor.cpp:141-155 *)
Definition summand (p d : nat) (jm km : nat -> nat) (order_im order_km : nat) (binomiZ : R) : R :=
  let order_k_by_d := INR order_km / INR d in
  let r1 := fold_left (fun r _ => r * order_k_by_d) (seq 0 order_im) 1 in
  let r2 := if ((order_im + order_km) mod 2 =? 1)%nat then r1 * -1 else r1 in
  fold_left (fun r i => r * dbinomi (INR (d * km i) / INR order_km) (jm i)) (seq 0 p) (r2 * binomiZ).

(** the loop advancing k, taylor.cpp:192-205; [i] is the C variable i plus one; the
    result says whether a next k exists (C: i != -1) *)
Fixpoint advance (im km : nat -> nat) (i order_km : nat) (binomiZ : R)
  : (nat -> nat) * nat * R * bool :=
  match i with
  | O => (km, order_km, binomiZ, false)
  | S i' =>
      if (km i' <? im i')%nat then
        let km' := put km i' (km i' + 1)%nat in
        (km', (order_km + 1)%nat,
         binomiZ * INR (im i' - km' i' + 1) / INR (km' i'), true)
      else advance im (put km i' 0%nat) i' (order_km - km i') binomiZ
  end.

(** the loop over all k with 0 < k <= i, taylor.cpp:191-210 *)
Fixpoint kloop (fuel p d : nat) (jm im : nat -> nat) (order_im : nat)
         (km : nat -> nat) (order_km : nat) (binomiZ sum : R)
  : option ((nat -> nat) * nat * R) :=
  match fuel with
  | O => None
  | S fuel' =>
      let '(km', ok', bz', go) := advance im km p order_km binomiZ in
      if go then
        kloop fuel' p d jm im order_im km' ok' bz'
              (sum + summand p d jm km' order_im ok' bz')
      else Some (km', ok', sum)
  end.

(** the value of sum for one i, taylor.cpp:184-210 *)
Definition isum (fuel p d : nat) (jm im : nat -> nat) (order_im : nat)
           (km : nat -> nat) (order_km : nat) :=
  if existsb (fun i => (0 <? jm i)%nat && (im i =? 0)%nat) (seq 0 p)
  then Some (km, order_km, 0)
  else kloop fuel p d jm im order_im km order_km 1 0.

(** the loop over all i of one order, taylor.cpp:183-249 *)
Fixpoint imloop (fuel p d : nat) (jm im : nat -> nat) (order_im : nat)
         (km : nat -> nat) (order_km : nat) (items : list item)
  : option ((nat -> nat) * (nat -> nat) * nat * list item) :=
  match fuel with
  | O => None
  | S fuel' =>
      match isum fuel p d jm im order_im km order_km with
      | None => None
      | Some (km', ok', sum) =>
          let items' :=
            if Rlt_dec 0 (Rabs sum)
            then items ++ [mkItem (coeff_address p d order_im im) order_im sum]
            else items in
          if (im (p - 1)%nat =? order_im)%nat || (p =? 1)%nat
          then Some (im, km', ok', items')
          else imloop fuel' p d jm (next_jm p im) order_im km' ok' items'
      end
  end.

(** the loop over the orders, taylor.cpp:178-250 *)
Fixpoint orders (fuel p d : nat) (jm im km : nat -> nat) (order_km : nat)
         (items : list item) (l : list nat)
  : option ((nat -> nat) * (nat -> nat) * nat * list item) :=
  match l with
  | [] => Some (im, km, order_km, items)
  | o :: l' =>
      match imloop fuel p d jm (put (put im (p - 1) 0%nat) 0 o) o km order_km items with
      | None => None
      | Some (im', km', ok', items') => orders fuel p d jm im' km' ok' items' l'
      end
  end.

(** the loop over the directions, taylor.cpp:174-259.  A direction without any
    coefficient leaves ptr = NULL, and ptr->next is an invalid access *)
Fixpoint jmloop (fuel p d : nat) (jm im km : nat -> nat) (order_km : nat)
         (lists : list (list item)) : option (list (list item)) :=
  match fuel with
  | O => None
  | S fuel' =>
      match orders fuel p d jm im km order_km [] (seq 1 d) with
      | None => None
      | Some (_, _, _, []) => None
      | Some (im', km', ok', items) =>
          if (jm (p - 1)%nat =? d)%nat || (p =? 1)%nat then Some (lists ++ [items])
          else jmloop fuel' p d (next_jm p jm) im' km' ok' (lists ++ [items])
      end
  end.

(** coeff, taylor.cpp:160-263 *)
Definition coeff (fuel p d : nat) : option (list (list item)) :=
  jmloop fuel p d (put (fun _ => 0%nat) 0 d) (fun _ => 0%nat) (fun _ => 0%nat) 0 [].

(** multma2vec2 / multma3vec2, taylor.cpp:317-343: column k of S*jm *)
Definition multma (n p : nat) (S : nat -> nat -> R) (jm : nat -> nat) : list R :=
  map (fun i => fold_left (fun sum j => sum + S i j * INR (jm j)) (seq 0 p) 0) (seq 0 n).

Section Eval.
(** fov_forward / hov_forward: directions, dependent, number of the direction, order *)
Variable hov : list (list R) -> nat -> nat -> nat -> R.
Variable zos : nat -> R.

Definition tensor := nat -> nat -> R.
Definition addto (t : tensor) (m a : nat) (v : nat -> R) : tensor :=
  fun j b => if (b =? a)%nat && (j <? m)%nat then t j b + v j else t j b.

(** taylor.cpp:776-787 and 823-833: evaluate the collected directions and distribute *)
Definition flush (m n p : nat) (S : nat -> nat -> R)
           (pending : list ((nat -> nat) * list item)) (t : tensor) : tensor :=
  let X := map (fun q => multma n p S (fst q)) pending in
  fold_left (fun t q =>
    fold_left (fun t (it : item) =>
                 addto t m (ia it) (fun j => hov X j (fst q) (ib it) * ic it))
              (snd (snd q)) t)
    (combine (seq 0 (length pending)) pending) t.

(** the multi-index in turn i, taylor.cpp:769-770 and 812-818 *)
Definition turn_it (p d : nat) (it : nat -> nat) : nat -> nat :=
  if (d =? 1)%nat then put it 0 (it 0%nat + 1)%nat else next_it p d it.

(** the loop over the directions, taylor.cpp:766-792 and 806-838 *)
Fixpoint turns (m n p d : nat) (S : nat -> nat -> R) (cl : list (list item))
         (it : nat -> nat) (bd : nat) (pending : list ((nat -> nat) * list item))
         (i dim : nat) (t : tensor) : tensor :=
  match cl with
  | [] => t
  | items :: cl' =>
      let it' := turn_it p d it in
      let pending' := pending ++ [(convert d it', items)] in
      if (length pending <? bd - 1)%nat
      then turns m n p d S cl' it' bd pending' (i + 1) dim t
      else turns m n p d S cl' it'
                 (if (dim - i <=? bd)%nat then dim - i - 1 else bd)%nat []
                 (i + 1) dim (flush m n p S pending' t)
  end.

(** the static variables dold, pold, coeff_list of tensor_eval, taylor.cpp:733-734 *)
Record cache := mkCache { dold : nat; pold : nat; coeff_list : list (list item) }.
Definition cache0 := mkCache 0 0 [].

(** tensor_eval, taylor.cpp:731-851; entries outside the caller's array keep the value
    [t0] *)
Definition tensor_eval (fuel : nat) (c : cache) (m n d p : nat) (S : nat -> nat -> R) (t0 : tensor)
  : option (cache * tensor) :=
  let dimten := binomi (p + d) d in
  let t1 := fun j a => if (j <? m)%nat && (a <? dimten)%nat then 0 else t0 j a in
  let last t := fun j a => if (j <? m)%nat && (a =? 0)%nat then zos j else t j a in
  if (d =? 0)%nat then Some (c, last t1)
  else
    let dim := binomi (p + d - 1) d in
    let bd := if (dim <? 10)%nat then dim else 10%nat in
    let oc := if negb (d =? dold c)%nat || negb (p =? pold c)%nat
              then match coeff fuel p d with
                   | None => None
                   | Some l => Some (mkCache d p l)
                   end
              else Some c in
    match oc with
    | None => None
    | Some c' =>
        let it0 := if (d =? 1)%nat then fun _ => 0%nat
                   else fun i => if (i <? d - 1)%nat then 1%nat else 0%nat in
        Some (c', last (turns m n p d S (coeff_list c') it0 bd [] 0 dim t1))
    end.
End Eval.
