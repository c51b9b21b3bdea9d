(** Model of the collective helpers: include/macis/util/mpi.hpp:159-220 and
    include/macis/util/dist_quickselect.hpp. No proofs in this file.

    All ranks of a communicator run in lockstep: a value "per rank" is a list
    with one element for each rank, in rank order. MPI itself is not modelled
    beyond what the MPI standard says about the result of each collective. *)
From Coq Require Import Sorting.Permutation Sorting.Sorted.
From Verif Require Import Base Nondet Asci Constraint.
Local Open Scope nat_scope.

(** ** C++ integers *)

(* the conversions to int (modulo 2^32, as gcc defines it) and to size_t *)
Definition to_int (z : Z) : Z := ((z + 2 ^ 31) mod 2 ^ 32 - 2 ^ 31)%Z.
Definition to_size (z : Z) : Z := (z mod 2 ^ 64)%Z.
Definition INT_MAX : Z := (2 ^ 31 - 1)%Z.
(* the two instances of the template parameter Integral in /repo *)
Inductive integral := IInt | ISize.
Definition to_integral (t : integral) (z : Z) : Z :=
  match t with IInt => to_int z | ISize => to_size z end.
(* a + b where one operand has type [t] and the other type [t] or int: signed
   overflow is undefined, unsigned arithmetic is modulo 2^64 *)
Definition int_add (t : integral) (a b : Z) : res Z :=
  match t with
  | ISize => Ok (to_size (to_size a + to_size b))
  | IInt => if ((- 2 ^ 31 <=? a + b) && (a + b <? 2 ^ 31))%Z then Ok (a + b)%Z else Err UB
  end.

(** ** dist_quickselect.hpp:31-46 total_gather_and_exclusive_scan *)

(* :42 std::accumulate, the accumulator has type Integral *)
Fixpoint accumulate_z (t : integral) (acc : Z) (l : list Z) : res Z :=
  match l with [] => Ok acc | x :: r => do s <- int_add t acc x; accumulate_z t s r end.
(* :43 std::exclusive_scan with initial value 0, so with an accumulator of type
   int: *result++ = acc; acc = acc + x *)
Fixpoint exclusive_scan_z (t : integral) (acc : Z) (l : list Z) : res (list Z) :=
  match l with
  | [] => Ok []
  | x :: r => do s <- int_add t acc x; do rest <- exclusive_scan_z t (to_int s) r;
              Ok (to_integral t acc :: rest)
  end.
(* [vals]: the argument val of each rank. The result (total, gather, scan) is
   the same on all ranks. *)
Definition total_gather_and_exclusive_scan (t : integral) (vals : list Z) : res (Z * list Z * list Z) :=
  do total <- accumulate_z t 0 vals;
  do scan <- exclusive_scan_z t 0 vals;
  Ok (total, vals, scan).

(** ** mpi.hpp:159-220 allreduce, bcast *)

(* MPI_Allreduce on [n] elements from offset [off] of the buffers: every element
   of the receive buffer in that range becomes the reduction over the ranks of
   the same element of the send buffers; a buffer that is too short is
   undefined. [op]: the reduction of the ranks' values. *)
Fixpoint set_range {A} (off : nat) (new old : list A) : list A :=
  match off, old with
  | S o, x :: r => x :: set_range o new r
  | S _, [] => []
  | 0, _ => new ++ skipn (length new) old
  end.
Definition slice {A} (off n : nat) (l : list A) : res (list A) :=
  if off + n <=? length l then Ok (firstn n (skipn off l)) else Err UB.
(* element-wise reduction of one buffer per rank, all of length [n] *)
Definition reduce_elems {A} (op : list A -> A) (dflt : A) (n : nat) (bufs : list (list A)) : list A :=
  map (fun j => op (map (fun b => nth j b dflt) bufs)) (seq 0 n).
Definition MPI_Allreduce {A} (op : list A -> A) (dflt : A) (off n : nat) (send recv : list (list A))
  : res (list (list A)) :=
  do s <- mapM (slice off n) send;
  do _ <- mapM (slice off n) recv;
  Ok (map (set_range off (reduce_elems op dflt n s)) recv).

(* mpi.hpp:159-176 allreduce(send, recv, count, op, comm), with the bound
   numeric_limits<int>::max() as a parameter; [refuse] is the throw at :165 *)
Definition allreduce_chunked {A} (refuse : bool) (op : list A -> A) (dflt : A) (intmax count : nat)
  (send recv : list (list A)) : res (list (list A)) :=
  let nchunk := count / intmax in
  if refuse && negb (nchunk =? 0) then Err Throw
  else
    do recv <- fold_left (fun r i => do recv <- r; MPI_Allreduce op dflt (i * intmax) intmax send recv)
                         (seq 0 nchunk) (Ok recv);
    let nrem := count mod intmax in
    if nrem =? 0 then Ok recv
    else MPI_Allreduce op dflt (nchunk * intmax) nrem send recv.
Definition allreduce {A} (op : list A -> A) (dflt : A) (count : nat) (send recv : list (list A))
  : res (list (list A)) := allreduce_chunked true op dflt (Z.to_nat INT_MAX) count send recv.
(* mpi.hpp:196-202: reduction of one value per rank; r is uninitialised *)
Definition allreduce_one {A} (op : list A -> A) (dflt : A) (d : list A) : res (list A) :=
  do r <- allreduce op dflt 1 (map (fun x => [x]) d) (map (fun _ => [dflt]) d);
  Ok (map (fun b => nth 0 b dflt) r).

(* MPI_Bcast of [n] elements from offset [off] of rank [root]'s buffer *)
Definition MPI_Bcast {A} (off n root : nat) (bufs : list (list A)) : res (list (list A)) :=
  do b <- at_ bufs root;
  do s <- slice off n b;
  do _ <- mapM (slice off n) bufs;
  Ok (map (set_range off s) bufs).
(* mpi.hpp:204-220 bcast *)
Definition bcast_chunked {A} (refuse : bool) (intmax count root : nat) (bufs : list (list A))
  : res (list (list A)) :=
  let nchunk := count / intmax in
  if refuse && negb (nchunk =? 0) then Err Throw
  else
    do bufs <- fold_left (fun r i => do bufs <- r; MPI_Bcast (i * intmax) intmax root bufs)
                         (seq 0 nchunk) (Ok bufs);
    let nrem := count mod intmax in
    if nrem =? 0 then Ok bufs else MPI_Bcast (nchunk * intmax) nrem root bufs.
Definition bcast {A} (count root : nat) (bufs : list (list A)) : res (list (list A)) :=
  bcast_chunked true (Z.to_nat INT_MAX) count root bufs.

(* MPI_Allgatherv: the block of rank r is stored at offset displ[r] of a receive
   buffer; a block beyond its end is undefined *)
Definition MPI_Allgatherv {A} (blocks : list (list A)) (displ : list Z) (recv : list A) : res (list A) :=
  fold_left (fun r (bd : list A * Z) => do buf <- r;
      if ((0 <=? snd bd) && (snd bd + Z.of_nat (length (fst bd)) <=? Z.of_nat (length buf)))%Z
      then Ok (set_range (Z.to_nat (snd bd)) (fst bd) buf) else Err UB)
    (combine blocks displ) (Ok recv).

(** ** dist_quickselect.hpp:18-29 leg_partition, :48-150 dist_quickselect *)

Section QUICKSELECT.
  Context {A : Type}.
  (* the value of a value-initialised element; ord_comp; eq_comp *)
  Variables (dflt : A) (lt eq : A -> A -> bool).

  (* dist_quickselect.hpp:18-29 for predicates comparing with the pivot: the
     three consecutive parts *)
  Definition leg_partition {B} (is_less is_eq : B -> bool) (l : list B)
    : nd (list B * list B * list B) :=
    any pr <- std_partition is_less l;
    any qr <- std_partition is_eq (snd pr);
    ret (fst pr, fst qr, snd qr).

  (* std::max_element: the first of the largest *)
  Fixpoint max_from (best : A) (l : list A) : A :=
    match l with [] => best | x :: r => if lt best x then max_from x r else max_from best r end.
  (* :60-62 and :138-147: nth_element(begin, begin + k, end), then
     *max_element(begin, begin + k), which for k = 0 is *begin *)
  Definition kth_by_max (k : nat) (l : list A) : nd A :=
    any ab <- nth_element lt k l;
    match fst ab with
    | x :: r => ret (max_from x r)
    | [] => det (at_ (snd ab) 0)
    end.

  (* std::upper_bound(first, last, x) on a range of size_t: undefined unless the
     elements <= x precede the others *)
  Fixpoint upper_bound (l : list Z) (x : Z) : res nat :=
    match l with
    | [] => Ok 0
    | y :: r => if (x <? y)%Z
                then if forallb (fun z => (x <? z)%Z) r then Ok 0 else Err UB
                else do n <- upper_bound r x; Ok (S n)
    end.

  (* the variables of the loop: k and the local ranges [local_begin, local_end);
     k, total_n, local_sizes, local_start and the generator have the same value
     on every rank, one copy stands for all *)
  Inductive qs_next :=
  | QGather                                  (* :78 break *)
  | QFound (pivot : A)                       (* :118-120 *)
  | QNext (k : nat) (data : list (list A)).  (* :115-117, :121-125 *)

  (* :71-126 one iteration of the loop; [g]: the value of g(). The comparison of
     int k with size_t counts converts k, which is not negative. *)
  Definition qs_iter (g k : nat) (data : list (list A)) : nd qs_next :=
    any tgs <- det (total_gather_and_exclusive_scan ISize (map (fun d => Z.of_nat (length d)) data));
    let '(total_n, _, local_start) := tgs in
    if (total_n <? Z.of_nat (length data))%Z then ret QGather
    else if (total_n =? 1)%Z then det (Err UB) (* modulo 0 *)
    else
      (* :81 *)
      let pivot_idx := to_int (Z.of_nat g mod to_size (total_n - 1)) in
      (* :84-89 *)
      any ub <- det (upper_bound local_start (to_size pivot_idx));
      let owner := ub - 1 in
      (* :92-96 *)
      any od <- det (at_ data owner);
      any st <- det (at_ local_start owner);
      let j := to_int (to_size pivot_idx - st) in
      any pivot <- det (if (j <? 0)%Z then Err UB else at_ od (Z.to_nat j));
      (* :99-101 *)
      any parts <- mapND (leg_partition (fun x => lt x pivot) (fun x => eq x pivot)) data;
      (* :104-112 *)
      let L := map (fun p => fst (fst p)) parts in
      let E := map (fun p => snd (fst p)) parts in
      let G := map snd parts in
      any tL <- det (allreduce_one list_sum 0 (map (@length A) L));
      any tE <- det (allreduce_one list_sum 0 (map (@length A) E));
      let total_L := nth 0 tL 0 in
      let total_E := nth 0 tE 0 in
      if k <=? total_L then ret (QNext k L)
      else if k <=? total_L + total_E then ret (QFound pivot)
      else ret (QNext (k - (total_L + total_E)) G).

  (* :128-147: what every rank obtains after the loop *)
  Definition qs_gather (k : nat) (data : list (list A)) : nd (list A) :=
    any tgs <- det (total_gather_and_exclusive_scan IInt (map (fun d => to_int (Z.of_nat (length d))) data));
    let '(total_n, _, displ) := tgs in
    any gathered <- det (MPI_Allgatherv data displ (repeat dflt (Z.to_nat total_n)));
    mapND (fun _ => kth_by_max k gathered) data.

  (* :70-149; [g i]: the value of g() in iteration i. [fuel] bounds the number
     of iterations, running out means that the call is still looping *)
  Fixpoint qs_loop (fuel : nat) (g : nat -> nat) (k : nat) (data : list (list A)) : nd (list A) :=
    match fuel with
    | 0 => det (Err Hang)
    | S f =>
      any nx <- qs_iter (g 0) k data;
      match nx with
      | QGather => qs_gather k data
      | QFound pivot => ret (map (fun _ => pivot) data)
      | QNext k' data' => qs_loop f (fun i => g (S i)) k' data'
      end
    end.

  (* :48-150 dist_quickselect: [data] is the range of every rank, the result is
     the value returned on every rank. 0 <= k. *)
  Definition dist_quickselect (fuel : nat) (g : nat -> nat) (k : nat) (data : list (list A)) : nd (list A) :=
    match data with
    | [] => det (Err UB)                    (* no such communicator *)
    | [d] => any v <- kth_by_max k d; ret [v]
    | _ => qs_loop fuel g k data
    end.
End QUICKSELECT.
