(** Properties C34, C35: collective helpers and distributed selection. *)
From Verif Require Import Base Nondet Collective CollectiveSpec QuickProofs AsciMpiGlue2.
Local Open Scope nat_scope.

(** ** C34: distributed selection *)

(** For every distribution of the data over the ranks, every sequence of pivots
    and every outcome of std::partition and std::nth_element, the call returns,
    after at most one round per element, and every rank obtains a k-th element
    of the union. *)
Theorem C34_kth_element : forall (A : Type) (dflt : A) lt eq, weak_order lt ->
  (forall x y, eq x y = negb (lt x y) && negb (lt y x)) ->
  forall fuel g k data, data <> [] -> (Z.of_nat (length (concat data)) < 2 ^ 31)%Z ->
  1 <= k -> k <= length (concat data) -> length (concat data) < fuel ->
  always (dist_quickselect dflt lt eq fuel g k data)
    (fun vs => length vs = length data /\ Forall (is_kth lt k (concat data)) vs).
Proof. exact @dist_quickselect_ok. Qed.
Print Assumptions C34_kth_element.
(** When ties are equal elements, it is the same value in every rank and every
    run, independent of the distribution and of the pivots. *)
Theorem C34_same_value : forall (A : Type) (dflt : A) lt eq, weak_order lt ->
  (forall x y, eq x y = negb (lt x y) && negb (lt y x)) ->
  (forall x y, lt x y = false -> lt y x = false -> x = y) ->
  forall fuel g k data, data <> [] -> (Z.of_nat (length (concat data)) < 2 ^ 31)%Z ->
  1 <= k -> k <= length (concat data) -> length (concat data) < fuel ->
  exists v, is_kth lt k (concat data) v /\
    always (dist_quickselect dflt lt eq fuel g k data) (fun vs => vs = map (fun _ => v) data).
Proof. exact @c34_same. Qed.
Print Assumptions C34_same_value.
(** k beyond the number of elements is not diagnosed. *)
Theorem C34_too_large_refuted : forall (A : Type) (dflt : A) lt eq, weak_order lt ->
  (forall x y, eq x y = negb (lt x y) && negb (lt y x)) ->
  forall fuel g k data, data <> [] -> (Z.of_nat (length (concat data)) < 2 ^ 31)%Z ->
  length (concat data) < k -> length (concat data) < fuel ->
  forall r, dist_quickselect dflt lt eq fuel g k data r -> r = Err UB.
Proof. exact @dist_quickselect_too_large. Qed.
Print Assumptions C34_too_large_refuted.
(** Nor is k = 0: two ranks with one element each end reading an empty buffer. *)
Theorem C34_zero_refuted : forall fuel g, 2 <= fuel -> forall r,
  dist_quickselect 0 (fun x y => y <? x) Nat.eqb fuel g 0 [[5]; [5]] r -> r = Err UB.
Proof. exact c34_zero. Qed.
Print Assumptions C34_zero_refuted.
Example C34_ex : weak_order (fun x y : nat => y <? x) /\
  (forall x y, Nat.eqb x y = negb (y <? x) && negb (x <? y)) /\
  is_kth (fun x y => y <? x) 2 (concat [[3; 1]; []; [7; 3]]) 3 /\
  ~ is_kth (fun x y => y <? x) 2 (concat [[3; 1]; []; [7; 3]]) 7.
Proof. exact c34_ex. Qed.

(** ** C35: collective helpers *)

(** total, gathered values, and for every rank the sum over the lower ranks *)
Theorem C35_gather_and_scan : forall t vals, Forall (fun x => (0 <= x)%Z) vals ->
  (fold_right Z.add 0 vals < 2 ^ 31)%Z ->
  exists scan, total_gather_and_exclusive_scan t vals = Ok (fold_right Z.add 0%Z vals, vals, scan) /\
    length scan = length vals /\
    forall r, r < length vals -> nth_error scan r = Some (fold_right Z.add 0%Z (firstn r vals)).
Proof. exact c35_scan. Qed.
Print Assumptions C35_gather_and_scan.
(** Beyond 2^31 elements the scan is wrong even for size_t: its accumulator is
    an int. The second of two ranks, the first holding 2^31 elements, is told to
    start at 2^64 - 2^31. *)
Theorem C35_scan_wraps_refuted : exists total scan,
  total_gather_and_exclusive_scan ISize [(2 ^ 31)%Z; 5%Z] = Ok (total, [(2 ^ 31)%Z; 5%Z], scan) /\
  total = (2 ^ 31 + 5)%Z /\ nth_error scan 1 = Some (2 ^ 64 - 2 ^ 31)%Z.
Proof. exact c35_scan_wraps. Qed.
Print Assumptions C35_scan_wraps_refuted.
(** Every rank's first [count] elements become the reduction over the ranks; the
    rest of the buffers is untouched. *)
Theorem C35_allreduce : forall (A : Type) (op : list A -> A) dflt count send recv,
  (Z.of_nat count < 2 ^ 31 - 1)%Z ->
  (forall b, In b send -> count <= length b) -> (forall b, In b recv -> count <= length b) ->
  exists out, allreduce op dflt count send recv = Ok out /\
    length out = length recv /\ forall r, r < length recv ->
      length (nth r out []) = length (nth r recv []) /\
      forall j, nth j (nth r out []) dflt =
        if j <? count then op (map (fun b => nth j b dflt) send) else nth j (nth r recv []) dflt.
Proof. exact @c35_allreduce. Qed.
Print Assumptions C35_allreduce.
(** The chunking itself is right for every chunk size [intmax] and every length
    when the refusal ([refuse]) is taken out. *)
Theorem C35_allreduce_chunks : forall (A : Type) (op : list A -> A) dflt refuse intmax count send recv,
  0 < intmax -> (refuse = true -> count < intmax) ->
  (forall b, In b send -> count <= length b) -> (forall b, In b recv -> count <= length b) ->
  exists out, allreduce_chunked refuse op dflt intmax count send recv = Ok out /\
    length out = length recv /\ forall r, r < length recv ->
      length (nth r out []) = length (nth r recv []) /\
      forall j, nth j (nth r out []) dflt =
        if j <? count then op (map (fun b => nth j b dflt) send) else nth j (nth r recv []) dflt.
Proof. exact @c35_allreduce_chunked. Qed.
Print Assumptions C35_allreduce_chunks.
(** As written, buffers of INT_MAX or more elements are refused. *)
Theorem C35_allreduce_long_refuted : forall (A : Type) (op : list A -> A) dflt count send recv,
  (2 ^ 31 - 1 <= Z.of_nat count)%Z -> allreduce op dflt count send recv = Err Throw.
Proof. exact @c35_allreduce_refuses. Qed.
Print Assumptions C35_allreduce_long_refuted.
Theorem C35_allreduce_value : forall (A : Type) (op : list A -> A) dflt d,
  allreduce_one op dflt d = Ok (map (fun _ => op d) d).
Proof. exact @c35_allreduce_one. Qed.
Print Assumptions C35_allreduce_value.
(** Every rank's first [count] elements become those of rank [root]. *)
Theorem C35_bcast : forall (A : Type) (dflt : A) count root bufs, (Z.of_nat count < 2 ^ 31 - 1)%Z ->
  root < length bufs -> (forall b, In b bufs -> count <= length b) ->
  exists out, bcast count root bufs = Ok out /\
    length out = length bufs /\ forall r, r < length bufs ->
      length (nth r out []) = length (nth r bufs []) /\
      forall j, nth j (nth r out []) dflt = nth j (if j <? count then nth root bufs [] else nth r bufs []) dflt.
Proof. exact @c35_bcast. Qed.
Print Assumptions C35_bcast.
Theorem C35_bcast_chunks : forall (A : Type) (dflt : A) refuse intmax count root bufs,
  0 < intmax -> (refuse = true -> count < intmax) -> root < length bufs ->
  (forall b, In b bufs -> count <= length b) ->
  exists out, bcast_chunked refuse intmax count root bufs = Ok out /\
    length out = length bufs /\ forall r, r < length bufs ->
      length (nth r out []) = length (nth r bufs []) /\
      forall j, nth j (nth r out []) dflt = nth j (if j <? count then nth root bufs [] else nth r bufs []) dflt.
Proof. exact @c35_bcast_chunked. Qed.
Print Assumptions C35_bcast_chunks.
Theorem C35_bcast_long_refuted : forall (A : Type) count root (bufs : list (list A)),
  (2 ^ 31 - 1 <= Z.of_nat count)%Z -> bcast count root bufs = Err Throw.
Proof. exact @c35_bcast_refuses. Qed.
Print Assumptions C35_bcast_long_refuted.
(* three ranks, five elements in chunks of two *)
Example C35_ex : allreduce_chunked false list_sum 0 2 5 [[1;2;3;4;5];[10;20;30;40;50];[0;0;0;0;7]]
    [[0;0;0;0;0;9];[1;1;1;1;1];[0;0;0;0;0]] =
  Ok [[11;22;33;44;62;9];[11;22;33;44;62];[11;22;33;44;62]].
Proof. reflexivity. Qed.
