(** C++ arrays, loops over arrays, parallel loops and point-to-point messages.
    Nothing here models a particular function of /repo. *)
From Coq Require Import QArith Qcanon Sorting.Permutation.
From Verif Require Import Base Nondet Ham Asci.
Local Open Scope nat_scope.

(** a[i] = x on a C++ array (reading is [at_]): outside the array is undefined *)
Fixpoint put {A} (l : list A) (i : nat) (x : A) : res (list A) :=
  match l, i with
  | [], _ => Err UB
  | _ :: r, 0 => Ok (x :: r)
  | y :: r, S j => do r' <- put r j x; Ok (y :: r')
  end.
(** a[i] on an array whose elements may be uninitialised (None) *)
Definition load {A} (l : list (option A)) (i : nat) : res A :=
  match nth_error l i with Some (Some x) => Ok x | _ => Err UB end.
(** a - b on C++ integers where a negative result is used as an index or a
    length *)
Definition minus_ (a b : nat) : res nat := if a <? b then Err UB else Ok (a - b).
(** std::copy of the elements [a, b) of an array *)
Definition slice_ {A} (l : list A) (a b : nat) : res (list A) :=
  if (a <=? b) && (b <=? length l) then Ok (firstn (b - a) (skipn a l)) else Err UB.
(** std::copy to the elements [i, i + length xs) of an array *)
Fixpoint put_all {A} (l : list A) (i : nat) (xs : list A) : res (list A) :=
  match xs with [] => Ok l | x :: r => do l' <- put l i x; put_all l' (S i) r end.

(** a loop whose iterations are executed by several threads: the iterations
    take place in any order. Only used for loops whose iterations are
    independent (each writes array elements no other iteration touches); the
    interleaving inside an iteration is not modelled. *)
Definition parallel_for {I S} (its : list I) (f : S -> I -> res S) (s : S) : nd S := fun r =>
  exists order, Permutation its order /\ r = foldM order f s.

(** Point-to-point messages with one tag: [sends] lists, for every rank, the
    (destination, contents) of its sends, [recvs] the (source, length) of its
    receives, in the order posted. Messages between two ranks do not overtake
    each other (MPI standard 3.5). The result lists, for every rank, the
    contents received. A receive without a message, or a message without a
    receive, blocks in MPI_Waitall; a message longer than the receive buffer
    is an error; a shorter one is modelled as an error too, since it would
    leave elements unset. *)
Fixpoint recv_all {A} (mail : list (list (list A))) (rs : list (nat * nat)) : res (list (list A)) :=
  match rs with
  | [] => if forallb (fun m => match m with [] => true | _ => false end) mail then Ok [] else Err Hang
  | (s, c) :: rs' =>
    match nth_error mail s with
    | None => Err UB
    | Some [] => Err Hang
    | Some (m :: ms) =>
      if length m =? c then
        do mail' <- put mail s ms;
        do rest <- recv_all mail' rs';
        Ok (m :: rest)
      else Err UB
    end
  end.
Definition exchange {A} (sends : list (list (nat * list A))) (recvs : list (list (nat * nat)))
  : res (list (list (list A))) :=
  if forallb (fun out => forallb (fun m => fst m <? length sends) out) sends then
    mapM (fun dr => recv_all (map (fun out => map snd (filter (fun m => fst m =? fst dr) out)) sends) (snd dr))
      (combine (seq 0 (length recvs)) recvs)
  else Err UB.
