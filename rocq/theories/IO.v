(** Model of include/macis/wavefunction_io.hpp and src/macis/fcidump.cxx. A file
    is its contents; [show] is the text a double is printed as, [rnd] the
    conversion of a decimal number to a double. No proofs in this file. *)
From Coq Require Import Ascii String QArith Qcanon ZArith NArith Bool.
From Verif Require Import Base Bits SD Ham Asci Mem Text.
Local Open Scope nat_scope.

(** ** wavefunction_io.hpp *)

(* wavefunction_io.hpp:94-114 write_wavefunction; [old] is what the file held
   before (:101 returns without opening the file) *)
Definition write_wavefunction (show : Qc -> text) (W norb : nat) (states : list N) (coeffs : list Qc)
  (old : text) : res text :=
  if negb (List.length states =? List.length coeffs) then Err Throw
  else match states with
  | [] => Ok old
  | s0 :: _ =>
    let nalpha := bs_count (bs_shl W s0 (W / 2)) in
    let nbeta := bs_count (bs_shr s0 (W / 2)) in
    let header := show_nat (List.length states) ++ [sp] ++ show_nat norb ++ [sp] ++
                  show_nat nalpha ++ [sp] ++ show_nat nbeta in
    let line i := pad 30 (show (nth i coeffs 0%Qc)) ++ [sp] ++
                  to_canonical_string W (nth i states 0%N) ++ [sp] in
    Ok (flat_map (fun l => l ++ [nl]) (header :: map line (seq 0 (List.length states))))
  end.

(* wavefunction_io.hpp:39-73 read_wavefunction; a missing file reads as an empty
   one. reserve(nstate) of a negative number throws. *)
Definition read_wavefunction (rnd : Q -> res Qc) (W : nat) (file : text) : res (list N * list Qc) :=
  let '(line, body) := match lines file with [] => ([], []) | l :: b => (l, b) end in
  let word i := nth i (words line) [] in
  do nstate <- stoi (word 0);
  do _ <- stoi (word 1);
  do _ <- stoi (word 2);
  do _ <- stoi (word 3);
  if (nstate <? 0)%Z then Err Throw
  else
    do l <- mapM (fun line =>
      let c := nth 0 (words line) [] in
      let d := nth 1 (words line) [] in
      do s <- from_canonical_string W d;
      do x <- stod rnd c;
      Ok (s, x)) body;
    Ok (map fst l, map snd l).

(** ** fcidump.cxx *)

(* fcidump.cxx:19-29 split with the regular expression " ": the non-empty
   strings between single spaces *)
Definition split_spaces : text -> list text := split_by (fun c => Ascii.eqb c sp).

(* fcidump.cxx:31-34 *)
Definition is_float (s : text) : bool := existsb (fun c => is_alpha c || Ascii.eqb c "."%char) s.

(* fcidump.cxx:36-63; called with five tokens *)
Definition fcidump_line (rnd : Q -> res Qc) (tokens : list text) : res (nat * nat * nat * nat * Qc) :=
  match tokens with
  | [t0; t1; t2; t3; t4] =>
    let idx_first := is_float t4 in
    let int_first := is_float t0 in
    if idx_first && int_first then Err Throw
    else
      let '(a, b, c, d, x) := if idx_first then (t0, t1, t2, t3, t4) else (t1, t2, t3, t4, t0) in
      do p <- stoi a;
      do q <- stoi b;
      do r <- stoi c;
      do s <- stoi d;
      do integral <- stod rnd x;
      if ((p <? 0) || (q <? 0) || (r <? 0) || (s <? 0))%Z then Err Throw
      else Ok (Z.to_nat p, Z.to_nat q, Z.to_nat r, Z.to_nat s, integral)
  | _ => Err UB
  end.

(* fcidump.cxx:65-74 *)
Inductive classification := Core | OneBody | TwoBody.
Definition line_classification (p q r s : nat) : classification :=
  let nz x := negb (x =? 0) in
  if negb (nz p || nz q || nz r || nz s) then Core
  else if nz p && nz q && nz r && nz s then TwoBody
  else OneBody.

(* fcidump.cxx:80-89: the loop over lines with five tokens, from state [st] *)
Definition for_lines {S} (rnd : Q -> res Qc) (file : text)
  (f : S -> nat * nat * nat * nat * Qc -> res S) (st : S) : res S :=
  foldM (lines file) (fun st line =>
    let tokens := split_spaces line in
    if negb (List.length tokens =? 5) then Ok st
    else do e <- fcidump_line rnd tokens; f st e) st.

(* fcidump.cxx:78-92 read_fcidump_norb *)
Definition read_fcidump_norb (rnd : Q -> res Qc) (file : text) : res nat :=
  for_lines rnd file (fun max_idx e =>
    let '(p, q, r, s, _) := e in
    Ok (Nat.max max_idx (Nat.max p (Nat.max q (Nat.max r s))))) 0.

(* fcidump.cxx:94-108 read_fcidump_core: returns at the first core line *)
Fixpoint core_loop (rnd : Q -> res Qc) (ls : list text) : res Qc :=
  match ls with
  | [] => Ok 0%Qc
  | line :: rest =>
    let tokens := split_spaces line in
    if negb (List.length tokens =? 5) then core_loop rnd rest
    else do e <- fcidump_line rnd tokens;
         let '(p, q, r, s, integral) := e in
         match line_classification p q r s with
         | Core => Ok integral
         | _ => core_loop rnd rest
         end
  end.
Definition read_fcidump_core (rnd : Q -> res Qc) (file : text) : res Qc := core_loop rnd (lines file).

(* mdspan access: an index outside the extents is undefined; column-major,
   packed (layout_left) *)
Definition span2 (n : nat) (p q : nat) : res nat :=
  if (p <? n) && (q <? n) then Ok (p + q * n) else Err UB.
Definition span4 (n : nat) (p q r s : nat) : res nat :=
  if (p <? n) && (q <? n) && (r <? n) && (s <? n) then Ok (p + n * (q + n * (r + n * s))) else Err UB.
(* int indices: p-- of 0 is -1, outside the extents *)
Definition pred_ (p : nat) : res nat := match p with 0 => Err UB | S p' => Ok p' end.

(* fcidump.cxx:110-132 read_fcidump_1body into a square mdspan of extents
   [e0] x [e1] *)
Definition read_fcidump_1body (rnd : Q -> res Qc) (file : text) (e0 e1 : nat) (T : list Qc) : res (list Qc) :=
  if negb (e0 =? e1) then Err Throw
  else
    do norb <- read_fcidump_norb rnd file;
    if negb (e0 =? norb) then Err Throw
    else for_lines rnd file (fun T e =>
      let '(p, q, r, s, integral) := e in
      match line_classification p q r s with
      | OneBody =>
        do p <- pred_ p;
        do q <- pred_ q;
        do a <- span2 norb p q;
        do T <- put T a integral;
        do b <- span2 norb q p;
        put T b integral
      | _ => Ok T
      end) T.

(* fcidump.cxx:134-139 read_fcidump_1body(fname, T, LDT): the strided submdspan is
   converted to a layout_left span, whose precondition is that the strides are
   those of a packed array *)
Definition read_fcidump_1body_raw (rnd : Q -> res Qc) (file : text) (T : list Qc) (LDT : nat) : res (list Qc) :=
  do norb <- read_fcidump_norb rnd file;
  if negb (LDT =? norb) then Err UB
  else read_fcidump_1body rnd file norb norb T.

(* fcidump.cxx:141-174 read_fcidump_2body into an mdspan of extents [e] *)
Definition read_fcidump_2body (rnd : Q -> res Qc) (file : text) (e : nat * nat * nat * nat) (V : list Qc)
  : res (list Qc) :=
  let '(e0, e1, e2, e3) := e in
  if negb (e0 =? e1) || negb (e0 =? e2) || negb (e0 =? e3) then Err Throw
  else
    do norb <- read_fcidump_norb rnd file;
    if negb (e0 =? norb) then Err Throw
    else for_lines rnd file (fun V e =>
      let '(p, q, r, s, integral) := e in
      match line_classification p q r s with
      | TwoBody =>
        do p <- pred_ p;
        do q <- pred_ q;
        do r <- pred_ r;
        do s <- pred_ s;
        foldM [(p, q, r, s); (p, q, s, r); (q, p, r, s); (q, p, s, r);
               (r, s, p, q); (s, r, p, q); (r, s, q, p); (s, r, q, p)] (fun V i =>
          let '(a, b, c, d) := i in
          do x <- span4 norb a b c d;
          put V x integral) V
      | _ => Ok V
      end) V.

(* fcidump.cxx:176-182 read_fcidump_2body(fname, V, LDV): as above *)
Definition read_fcidump_2body_raw (rnd : Q -> res Qc) (file : text) (V : list Qc) (LDV : nat) : res (list Qc) :=
  do norb <- read_fcidump_norb rnd file;
  if negb (LDV =? norb) then Err UB
  else read_fcidump_2body rnd file (norb, norb, norb, norb) V.

(* fcidump.cxx:188 one line: "{:8} {:8} {:8} {:8} {:25.16e}" *)
Definition fcidump_format (show : Qc -> text) (i j k l : nat) (v : Qc) : text :=
  pad 8 (show_nat i) ++ [sp] ++ pad 8 (show_nat j) ++ [sp] ++
  pad 8 (show_nat k) ++ [sp] ++ pad 8 (show_nat l) ++ [sp] ++ pad 25 (show v).

(* fcidump.cxx:184-207 write_fcidump. [registered]: whether a logger named
   "fcidump" exists already, as it does after an earlier call: spdlog then throws
   (:186). The contents are those of the file once spdlog has flushed it. *)
Definition write_fcidump (show : Qc -> text) (registered : bool) (norb : nat) (T : list Qc) (LDT : nat)
  (V : list Qc) (LDV : nat) (E_core : Qc) : res text :=
  if registered then Err Throw
  else
    do two <- mapM (fun ijkl =>
      let '(i, (j, (k, l))) := ijkl in
      do v <- at_ V (i + j * LDV + k * LDV * LDV + l * LDV * LDV * LDV);
      Ok (fcidump_format show (i + 1) (j + 1) (k + 1) (l + 1) v))
      (list_prod (seq 0 norb) (list_prod (seq 0 norb) (list_prod (seq 0 norb) (seq 0 norb))));
    do one <- mapM (fun ij =>
      let '(i, j) := ij in
      do v <- at_ T (i + j * LDT);
      Ok (fcidump_format show (i + 1) (j + 1) 0 0 v)) (list_prod (seq 0 norb) (seq 0 norb));
    Ok (flat_map (fun l => l ++ [nl]) (two ++ one ++ [fcidump_format show 0 0 0 0 E_core])).

(** ** Binary files of density matrices: fcidump.cxx *)

(* ifstream::read of [k] bytes into the bytes [buf]: a short file fills only the
   front; the second component is the rest of the file *)
Definition read_into (k : nat) (f buf : list N) : list N * list N :=
  (firstn k f ++ skipn (Nat.min k (List.length f)) buf, skipn k f).
(* element [i] of an array of objects of [w] bytes *)
Definition object_at (w i : nat) (buf : list N) : list N := firstn w (skipn (w * i) buf).

(* loops over two or four orbital indices *)
Definition all2 (n : nat) : list (nat * nat) := list_prod (seq 0 n) (seq 0 n).
Definition all4 (n : nat) : list (nat * nat * (nat * nat)) := list_prod (all2 n) (all2 n).

(* fcidump.cxx:254-280 write_rdms_binary; [enc]: the eight bytes of a double.
   [raw] has norb^4 elements and its first norb^2 are written first *)
Definition write_rdms_binary (enc : Qc -> list N) (norb : nat) (ORDM : list Qc) (LDD1 : nat)
  (TRDM : list Qc) (LDD2 : nat) : res (list N) :=
  let raw := repeat 0%Qc (norb * norb * norb * norb) in
  do raw <- foldM (all2 norb) (fun raw ij =>
    let '(i, j) := ij in
    do v <- at_ ORDM (i + j * LDD1);
    put raw (i + j * norb) v) raw;
  do one <- slice_ raw 0 (norb * norb);
  do raw <- foldM (all4 norb) (fun raw ijkl =>
    let '((i, j), (k, l)) := ijkl in
    do v <- at_ TRDM (i + j * LDD2 + k * LDD2 * LDD2 + l * LDD2 * LDD2 * LDD2);
    put raw (i + j * norb + k * norb * norb + l * norb * norb * norb) v) raw;
  (* int _norb_write = norb *)
  Ok (to_bytes 4 (N.of_nat norb mod 2 ^ 32) ++ flat_map enc one ++ flat_map enc raw).

(* fcidump.cxx:209-252 read_rdms_binary; [file]: None if it cannot be opened,
   [dec]: the double made of eight bytes *)
Definition read_rdms_binary (dec : list N -> Qc) (file : option (list N)) (norb : nat)
  (ORDM : list Qc) (LDD1 : nat) (TRDM : list Qc) (LDD2 : nat) : res (list Qc * list Qc) :=
  do ORDM <- foldM (all2 norb) (fun O ij => let '(i, j) := ij in put O (i + j * LDD1) 0%Qc) ORDM;
  do TRDM <- foldM (all4 norb) (fun T ijkl =>
    let '((i, j), (k, l)) := ijkl in
    put T (i + j * LDD2 + k * LDD2 * LDD2 + l * LDD2 * LDD2 * LDD2) 0%Qc) TRDM;
  match file with
  | None => Err Throw
  | Some f =>
    do x <- take_bytes 4 f;
    let '(b, f) := x in
    if negb (of_bytes b =? N.of_nat norb mod 2 ^ 32)%N then Err Throw
    else
      let raw := repeat 0%N (8 * (norb * norb * norb * norb)) in
      let '(raw, f) := read_into (8 * (norb * norb)) f raw in
      do ORDM <- foldM (all2 norb) (fun O ij =>
        let '(i, j) := ij in put O (i + j * LDD1) (dec (object_at 8 (i + j * norb) raw))) ORDM;
      let '(raw, f) := read_into (8 * (norb * norb * norb * norb)) f raw in
      do TRDM <- foldM (all4 norb) (fun T ijkl =>
        let '((i, j), (k, l)) := ijkl in
        put T (i + j * LDD2 + k * LDD2 * LDD2 + l * LDD2 * LDD2 * LDD2)
          (dec (object_at 8 (i + j * norb + k * norb * norb + l * norb * norb * norb) raw))) TRDM;
      Ok (ORDM, TRDM)
  end.
