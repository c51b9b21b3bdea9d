(** What sparse matrix files mean, independently of the code. *)
From Coq Require Import Ascii String QArith Qcanon ZArith NArith Bool.
From Verif Require Import Base Ham SparseSpec CsrView Spmv ConvSpec Text IOSpec.
Local Open Scope nat_scope.

(** [t] is the number [n] of a 64-bit integer *)
Definition number (t : text) (n : nat) : Prop :=
  t <> [] /\ (forall c, In c t -> is_digit c = true) /\ digits_val t = N.of_nat n /\ (N.of_nat n < 2 ^ 63)%N.
Definition a_word (t : text) : Prop := t <> [] /\ forall c, In c t -> is_space c = false.
(** the text [show v] is a word that reads back as [v] *)
Definition reads_back (show : Qc -> text) (rnd : Q -> res Qc) (v : Qc) : Prop :=
  a_word (show v) /\ stod rnd (show v) = Ok v.

(** (row, column, value) as they stand in the file *)
Definition element : Type := nat * nat * Qc.
(** a line with row, column and value (1 if left out) *)
Definition mm_row (rnd : Q -> res Qc) (l : text) (e : element) : Prop :=
  let '(i, j, v) := e in exists a b, number a i /\ number b j /\
  ((fields l = [a; b] /\ v = 1%Qc) \/ (exists x, a_word x /\ fields l = [a; b; x] /\ stod rnd x = Ok v)).
(** a MatrixMarket file of an [m] x [n] matrix with elements [es]: banner,
    comments, sizes, one line for every element; [sym]: only one triangle of a
    symmetric matrix is given *)
Definition mm_file (rnd : Q -> res Qc) (ls : list text) (sym : bool) (m n : nat) (es : list element) : Prop :=
  exists banner comments size body a b c d tm tn tz z,
  ls = banner :: comments ++ size :: body /\
  fields banner = [lit "%%MatrixMarket"; a; b; c; d] /\ a_word d /\ (sym = true <-> d = lit "symmetric") /\
  (forall l, In l comments -> exists r, l = "%"%char :: r) /\
  (forall r, size <> "%"%char :: r) /\ fields size = [tm; tn; tz] /\ number tm m /\ number tn n /\ number tz z /\
  Forall2 (mm_row rnd) body es.
(** both triangles *)
Definition mirrored (sym : bool) (es : list element) : list element :=
  flat_map (fun e => let '(i, j, v) := e in if sym && negb (i =? j) then [(i, j, v); (j, i, v)] else [(i, j, v)]) es.
(** indices count from 0 if there is a 0, otherwise from 1 *)
Definition base_of (es : list element) : nat :=
  if existsb (fun e => (fst (fst e) =? 0) || (snd (fst e) =? 0)) es then 0 else 1.

(** an element at (lo + i, j) is stored in the part of the rank whose first row is [lo] *)
Definition dist_stored (A : dist_csr) (lo i j : nat) : bool :=
  (lo <=? j) && stored (csr_line (d_diag A) i) (j - lo) ||
  match d_off A with None => false | Some B => stored (csr_line B i) j end.
(** the index base of a coordinate matrix can be told from its indices *)
Definition base_visible (A : coo) : Prop :=
  coo_ind A = 1 \/ (coo_ind A = 0 /\ (In 0 (coo_row A) \/ In 0 (coo_col A))).
(** sizes and indices are non-negative signed integers of [w] bytes *)
Definition coo_fits (w : nat) (A : coo) : Prop :=
  (2 * N.of_nat (coo_m A) < 256 ^ N.of_nat w)%N /\ (2 * N.of_nat (coo_n A) < 256 ^ N.of_nat w)%N /\ (N.of_nat (List.length (coo_val A)) < 2 ^ 64)%N /\
  (forall r, In r (coo_row A) -> (2 * N.of_nat r < 256 ^ N.of_nat w)%N) /\ (forall c, In c (coo_col A) -> (2 * N.of_nat c < 256 ^ N.of_nat w)%N).
(** a double's eight bytes give the double back *)
Definition doubles_ok (enc : Qc -> list N) (dec : list N -> Qc) (vs : list Qc) : Prop :=
  forall v, In v vs -> List.length (enc v) = 8 /\ dec (enc v) = v.
