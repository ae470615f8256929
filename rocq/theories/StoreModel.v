(** * Model of the location managers  (ADOL-C/src/storemanager.cpp,
      ADOL-C/include/adolc/storemanager.h).

    [None] as the result of a step means: the C++ code runs into undefined
    behaviour or a failing [assert] at that point.
    Simplifications, valid for the whole file:
    - [size_t] is modelled by [nat] (no wrap-around); the wrap-around of the
      growth computation is modelled separately in StoreWrap.v;
    - allocation ([new]) never fails;
    - the activity store (ADOLC_TRACK_ACTIVITY) is compiled out;
    - the double valued store is a list of values of an arbitrary type [V]. *)
From Coq Require Import List Arith Lia Bool.
Import ListNotations.

Section Store.
  Context {V : Type}.
  (** the bit pattern 0.0 that [memset] leaves behind,
      storemanager.cpp:449  memset(storePtr, 0, ...) *)
  Variable vzero : V.
  (** quiet NaN put into store[0] by StoreManagerLocint::grow,
      storemanager.cpp:180 *)
  Variable vnan : V.
  (** the content of freshly allocated, not initialised memory
      (StoreManagerLocint::grow uses [new double[maxsize]] without memset,
       storemanager.cpp:172) *)
  Variable vjunk : V.
  (** outcome of the floating point trigger
      [(double(maxSize())/double(size())) > gcTriggerRatio() ||
       maxSize() > gcTriggerMaxSize()]  (storemanager.cpp:367-368).
      Left arbitrary: every theorem holds for each rounding behaviour and for
      each setting made by setStoreManagerControl (storemanager.h:99-102). *)
  Variable gc_trigger : nat -> nat -> bool.

  (** ** Block manager *)

  (** storemanager.h:163-171 struct FreeBlock {next; size} *)
  Definition fblock := (nat * nat)%type.

  (** storemanager.h:155-190 class StoreManagerLocintBlock (with the referenced
      store, maxsize and currentfill of GlobalTapeVarsCL). *)
  Record bstate := mkB {
    b_store : list V;          (* storePtr *)
    b_max   : nat;             (* maxsize *)
    b_fill  : nat;             (* currentfill *)
    b_free  : list fblock      (* indexFree, front first *)
  }.

  (** storemanager.cpp:268-286 constructor: indexFree.clear(), and
      globaltapevarscl.h:36-41 store = nullptr, storeSize = numLives = 0 *)
  Definition b_init : bstate := mkB [] 0 0 [].

  (** storemanager.h:83 initialSize{4} *)
  Definition initialSize : nat := 4.

  (** storemanager.cpp:419-423
      [while (maxsize - oldMaxsize < minGrow) maxsize *= 2;]
      The fuel is shown to be sufficient (StoreProofs.grow_loop_enough). *)
  Fixpoint grow_loop (fuel m old minGrow : nat) : nat :=
    match fuel with
    | 0 => m
    | S f => if (m - old) <? minGrow then grow_loop f (2 * m) old minGrow else m
    end.

  (** storemanager.cpp:411-423 the size wanted by grow(minGrow) *)
  Definition new_max (old minGrow : nat) : nat :=
    let m := if old =? 0 then initialSize else 2 * old in
    grow_loop (S minGrow) m old minGrow.

  (** storemanager.cpp:481-493: the search loop for the block ending at
      oldMaxsize; returns the block and the list without it. *)
  Fixpoint take_tail (old : nat) (l : list fblock) : option (fblock * list fblock) :=
    match l with
    | [] => None
    | (n, s) :: r =>
        if n + s =? old then Some ((n, s), r)
        else match take_tail old r with
             | Some (b, r') => Some (b, (n, s) :: r')
             | None => None
             end
    end.

  (** storemanager.cpp:409-525 StoreManagerLocintBlock::grow.
      The front insertion followed by erase_after(biter) (lines 488-489) moves
      the found block to the front (if it already is the front, the freshly
      inserted copy is erased, with the same result). *)
  Definition b_grow (minGrow : nat) (s : bstate) : bstate :=
    let old := b_max s in
    let m := new_max old minGrow in
    let fr :=
      match take_tail old (b_free s) with
      | Some ((n, sz), r) => (n, sz + (m - old)) :: r
      | None => (old, m - old) :: b_free s
      end in
    mkB (b_store s ++ repeat vzero (m - old)) m (b_fill s)
        (filter (fun b => negb (snd b =? 0)) fr).

  (** storemanager.cpp:329-354 StoreManagerLocintBlock::next_loc *)
  Definition b_next (s : bstate) : option (bstate * nat) :=
    let s1 := match b_free s with [] => b_grow 0 s | _ => s end in
    match b_free s1 with
    | [] => None                                   (* front() of empty list *)
    | (n, sz) :: r =>
        match sz with
        | 0 => None            (* --front.size wraps around *)
        | S 0 =>
            match r with
            | [] => (* next(cbegin()) == cend(): front.next++; grow(); *)
                let s2 := b_grow 0 (mkB (b_store s1) (b_max s1) (b_fill s1) [(S n, 0)]) in
                Some (mkB (b_store s2) (b_max s2) (S (b_fill s2)) (b_free s2), n)
            | _ :: _ => (* pop_front() *)
                Some (mkB (b_store s1) (b_max s1) (S (b_fill s1)) r, n)
            end
        | S sz' =>
            Some (mkB (b_store s1) (b_max s1) (S (b_fill s1)) ((S n, sz') :: r), n)
        end
    end.

  (** storemanager.cpp:527-556 StoreManagerLocintBlock::free_loc *)
  Definition b_freeloc (loc : nat) (s : bstate) : option bstate :=
    if negb (loc <? b_max s) then None             (* assert(loc < maxsize) *)
    else match b_free s with
    | [] => None                                   (* front() of empty list *)
    | (n, sz) :: r =>
        match b_fill s with
        | 0 => None                                (* --currentfill wraps *)
        | S f =>
            let fr :=
              if (loc + 1 =? n) || (n + sz =? loc)
              then (if loc + 1 =? n then loc else n, S sz) :: r
              else (loc, 1) :: (n, sz) :: r in
            Some (mkB (b_store s) (b_max s) f fr)
        end
    end.

  (** storemanager.cpp:559 indexFree.sort(), ordered by next
      (storemanager.h:170).  std::forward_list::sort is a stable merge sort;
      an insertion sort computes the same list. *)
  Fixpoint binsert (b : fblock) (l : list fblock) : list fblock :=
    match l with
    | [] => [b]
    | c :: r => if fst c <? fst b then c :: binsert b r else b :: c :: r
    end.
  Definition bsort (l : list fblock) : list fblock := fold_right binsert [] l.

  (** storemanager.cpp:560-571 the merging loop of consolidateBlocks;
      [niter] is the first argument. *)
  Fixpoint bmerge (ni : fblock) (l : list fblock) : list fblock :=
    match l with
    | [] => [ni]
    | c :: r =>
        if fst ni + snd ni =? fst c
        then bmerge (fst ni, snd ni + snd c) r
        else ni :: bmerge c r
    end.

  (** storemanager.cpp:558-580 consolidateBlocks.  On an empty list the C++
      code increments end(): None. *)
  Definition consolidate (l : list fblock) : option (list fblock) :=
    match bsort l with
    | [] => None
    | b :: r => Some (bmerge b r)
    end.

  (** storemanager.cpp:377-389 the search for a block of size >= n; returns it
      and the list without it. *)
  Fixpoint take_big (n : nat) (l : list fblock) : option (fblock * list fblock) :=
    match l with
    | [] => None
    | b :: r =>
        if n <=? snd b then Some (b, r)
        else match take_big n r with
             | Some (c, r') => Some (c, b :: r')
             | None => None
             end
    end.

  (** storemanager.cpp:356-407 StoreManagerLocintBlock::ensure_block
      ([maxSize() - size()] cannot wrap: fill <= max is an invariant). *)
  Definition b_ensure (n : nat) (s : bstate) : option bstate :=
    if n <? b_max s - b_fill s then
      match b_free s with
      | [] => None                                  (* front() of empty list *)
      | b :: r =>
          if n <=? snd b then Some s
          else if gc_trigger (b_max s) (b_fill s) then
            match consolidate (b_free s) with
            | None => None
            | Some l =>
                match take_big n l with
                | Some (c, r') => Some (mkB (b_store s) (b_max s) (b_fill s) (c :: r'))
                | None => Some (b_grow n (mkB (b_store s) (b_max s) (b_fill s) l))
                end
            end
          else Some (b_grow n s)
      end
    else Some (b_grow n s).

  (** list update: store[loc] = v *)
  Fixpoint upd (l : list V) (i : nat) (v : V) : list V :=
    match l, i with
    | [], _ => []
    | _ :: r, 0 => v :: r
    | x :: r, S i' => x :: upd r i' v
    end.

  (** valuetape.h:461-465 get_ad_value / set_ad_value; an access outside of the
      allocated array is undefined behaviour. *)
  Definition b_read (loc : nat) (s : bstate) : option V := nth_error (b_store s) loc.
  Definition b_write (loc : nat) (v : V) (s : bstate) : option bstate :=
    if loc <? length (b_store s)
    then Some (mkB (upd (b_store s) loc v) (b_max s) (b_fill s) (b_free s))
    else None.

  (** ** Singleton manager *)

  (** storemanager.h:115-153 class StoreManagerLocint *)
  Record lstate := mkL {
    l_store : list V;
    l_index : list nat;        (* indexFree *)
    l_head  : nat;             (* head, 0 = end of list *)
    l_max   : nat;
    l_fill  : nat
  }.

  (** storemanager.cpp:60-70 (constructor) *)
  Definition l_init : lstate := mkL [] [] 0 0 0.

  Fixpoint updn (l : list nat) (i v : nat) : list nat :=
    match l, i with
    | [], _ => []
    | _ :: r, 0 => v :: r
    | x :: r, S i' => x :: updn r i' v
    end.

  (** storemanager.cpp:138-222 StoreManagerLocint::grow(mingrow).
      [new size_t[maxsize]] leaves cell 0 of indexFree uninitialised; it is
      never read (head == 0 means "empty") and modelled as 0.
      Lines 214-221 write the chain i -> i+1 -> ... -> maxsize-1 -> 0. *)
  Definition l_grow (mingrow : nat) (s : lstate) : lstate :=
    let old := if l_max s =? 0 then initialSize else l_max s in
    let m0 := 2 * old in
    let m := if m0 <? mingrow then mingrow else m0 in
    if old =? initialSize then
      (* "first time": nothing is copied, list starts at 1 *)
      mkL (vnan :: repeat vjunk (m - 1))
          (0 :: seq 2 (m - 2) ++ [0]) 1 m (l_fill s)
    else
      mkL (vnan :: firstn (old - 1) (skipn 1 (l_store s)) ++ repeat vjunk (m - old))
          (0 :: firstn (old - 1) (skipn 1 (l_index s)) ++ seq (S old) (m - old - 1) ++ [0])
          old m (l_fill s).

  (** storemanager.cpp:109-122 StoreManagerLocint::next_loc *)
  Definition l_next (s : lstate) : option (lstate * nat) :=
    let s1 := if l_head s =? 0 then l_grow 0 s else s in
    if l_head s1 =? 0 then None                     (* assert(head) *)
    else match nth_error (l_index s1) (l_head s1) with
         | None => None
         | Some nx => Some (mkL (l_store s1) (l_index s1) nx (l_max s1) (S (l_fill s1)),
                            l_head s1)
         end.

  (** storemanager.cpp:124-133 StoreManagerLocint::free_loc *)
  Definition l_freeloc (loc : nat) (s : lstate) : option lstate :=
    if (0 <? loc) && (loc <? l_max s) then
      match l_fill s with
      | 0 => None
      | S f => Some (mkL (l_store s) (updn (l_index s) loc (l_head s)) loc (l_max s) f)
      end
    else None.

  Definition l_read (loc : nat) (s : lstate) : option V := nth_error (l_store s) loc.
  Definition l_write (loc : nat) (v : V) (s : lstate) : option lstate :=
    if loc <? length (l_store s)
    then Some (mkL (upd (l_store s) loc v) (l_index s) (l_head s) (l_max s) (l_fill s))
    else None.

  (** ** Clients: what the adouble layer asks of a manager.
      Next  : adouble construction  (adtb_types.h tape_location ctor -> next_loc)
      Free  : adouble destruction   (-> free_loc)
      Ensure: ensureContiguousLocations(n)  (valuetape.h:423)
      Write / Read: set_ad_value / get_ad_value. *)
  Inductive cmd := CNext | CFree (l : nat) | CEnsure (n : nat)
                 | CWrite (l : nat) (v : V) | CRead (l : nat).
  Inductive out := OLoc (l : nat) | OVal (v : V) | OUnit | OError.

  Definition b_step (s : bstate) (c : cmd) : option (bstate * out) :=
    match c with
    | CNext => match b_next s with Some (s', l) => Some (s', OLoc l) | None => None end
    | CFree l => match b_freeloc l s with Some s' => Some (s', OUnit) | None => None end
    | CEnsure n => match b_ensure n s with Some s' => Some (s', OUnit) | None => None end
    | CWrite l v => match b_write l v s with Some s' => Some (s', OUnit) | None => None end
    | CRead l => match b_read l s with Some v => Some (s, OVal v) | None => None end
    end.

  (** StoreManagerLocint::ensure_block raises SM_LOCINT_BLOCK
      (storemanager.cpp:135-137): modelled as the reported error OError with an
      unchanged state. *)
  Definition l_step (s : lstate) (c : cmd) : option (lstate * out) :=
    match c with
    | CNext => match l_next s with Some (s', l) => Some (s', OLoc l) | None => None end
    | CFree l => match l_freeloc l s with Some s' => Some (s', OUnit) | None => None end
    | CEnsure n => Some (s, OError)
    | CWrite l v => match l_write l v s with Some s' => Some (s', OUnit) | None => None end
    | CRead l => match l_read l s with Some v => Some (s, OVal v) | None => None end
    end.
End Store.
Arguments cmd : clear implicits.
Arguments out : clear implicits.
Arguments bstate : clear implicits.
Arguments lstate : clear implicits.
