(** Examples for the Rutherford-Boeing reader. *)
From Coq Require Import Ascii String QArith Qcanon ZArith NArith Bool Lia.
From Verif Require Import Base Ham SparseSpec CsrView Sparse ConvSpec Text TextProofs IOSpec IOGlue SparseIO SparseIOSpec ReadRb ReadRbSpec.
Local Open Scope nat_scope.
Local Open Scope string_scope. Local Open Scope list_scope.

Definition rb_text (ls : list string) : text := flat_map (fun l => lit l ++ [nl]) ls.
Definition rb_ls : list string :=
  ["title                                key"; " 5 1 2 2"; "rua  3  3  5  0"; "(4I8) (4I8) (3E12.5)";
   "    1   3"; "    4   6"; "   1 3 2 1"; "   3"; " 2.0 1.0"; "3.0E+00 -1.0 5.0"].
Definition rb_cp := [1; 3; 4; 6].
Definition rb_ri := [1; 3; 2; 1; 3].
Definition z2c (z : Z) : Qc := Q2Qc (inject_Z z).
Definition rb_vs := map z2c [2; 1; 3; -1; 5]%Z.
Lemma num_ok s n : lit s <> [] -> forallb is_digit (lit s) = true -> digits_val (lit s) = N.of_nat n -> (N.of_nat n < 2 ^ 31)%N -> is_index (lit s) n.
Proof. intros A B C D. split; auto. rewrite forallb_forall in B. auto. Qed.
Lemma num_ok' s n : lit s <> [] -> forallb is_digit (lit s) = true -> digits_val (lit s) = N.of_nat n -> (N.of_nat n < 2 ^ 31)%N -> number (lit s) n.
Proof. intros A B C D. split; auto. rewrite forallb_forall in B. split; [|split]; auto. etransitivity; [apply D|reflexivity]. Qed.
Lemma dec_ok s v : lit s <> [] -> forallb (fun c => negb (is_space c)) (lit s) = true -> stod exact (lit s) = Ok v -> decimal exact (lit s) v.
Proof. intros A B C. split; auto. split; auto. rewrite forallb_forall in B. intros c Hc. apply negb_true_iff, B, Hc. Qed.
Lemma rb_example : rb_file exact (lines (rb_text rb_ls)) 3 3 rb_cp rb_ri rb_vs /\ csc_wf (mk_csc 3 3 1 rb_cp rb_ri rb_vs) /\
  map (csr_entry (mk_csr 3 3 1 [1; 3; 4; 6] [1; 3; 2; 1; 3] (map z2c [2; -1; 3; 1; 5]%Z)) 0) [0; 1; 2] = map z2c [2; 0; -1]%Z /\
  read_rb_csr exact (rb_text rb_ls) = Ok (mk_csr 3 3 1 [1; 3; 4; 6] [1; 3; 2; 1; 3] (map z2c [2; -1; 3; 1; 5]%Z)).
Proof.
  split.
  - replace (lines (rb_text rb_ls)) with (map lit rb_ls) by (vm_compute; reflexivity).
    exists (lit "title                                key"), (lit " 5 1 2 2"), (lit "rua  3  3  5  0"), (lit "(4I8) (4I8) (3E12.5)").
    exists (map lit ["    1   3"; "    4   6"]), (map lit ["   1 3 2 1"; "   3"]), (map lit [" 2.0 1.0"; "3.0E+00 -1.0 5.0"]).
    exists (lit "rua"), (lit "3"), (lit "3"), (lit "5"), (lit "0").
    split; [reflexivity|]. split; [vm_compute; reflexivity|].
    split; [apply num_ok'; vm_compute; congruence|]. split; [apply num_ok'; vm_compute; congruence|].
    split; [apply num_ok'; vm_compute; congruence|].
    split; [|split].
    + split; [|right; vm_compute; congruence].
      change (flat_map fields (map lit ["    1   3"; "    4   6"])) with [lit "1"; lit "3"; lit "4"; lit "6"].
      unfold rb_cp. repeat (apply Forall2_cons; [apply num_ok; vm_compute; congruence|]). constructor.
    + split; [|right; vm_compute; congruence].
      change (flat_map fields (map lit ["   1 3 2 1"; "   3"])) with [lit "1"; lit "3"; lit "2"; lit "1"; lit "3"].
      unfold rb_ri. repeat (apply Forall2_cons; [apply num_ok; vm_compute; congruence|]). constructor.
    + split; [|right; vm_compute; congruence].
      change (flat_map fields (map lit [" 2.0 1.0"; "3.0E+00 -1.0 5.0"])) with [lit "2.0"; lit "1.0"; lit "3.0E+00"; lit "-1.0"; lit "5.0"].
      unfold rb_vs. cbn [map]. repeat (apply Forall2_cons; [apply dec_ok; [vm_compute; congruence|vm_compute; congruence|vm_compute; canon]|]). constructor.
  - split; [|split; vm_compute; canon].
    unfold csc_wf, wf_compressed. cbn [csc_ind csc_n csc_m colptr rowind csc_val].
    split; [reflexivity|]. split; [reflexivity|]. split.
    { intros i Hi. destruct i as [|[|[|i]]]; vm_compute; try lia. }
    split; [reflexivity|]. split; [reflexivity|].
    intros c Hc. cbn in Hc. lia.
Qed.

(** a file that ends after the first value *)
Definition cut_ls : list string := ["t"; "s"; "rua 2 2 2 0"; "f"; "1 2 3"; "1 2"; "7.0"].
Lemma rb_cut_ex : read_rb_csc exact (rb_text cut_ls) = Ok (mk_csc 2 2 1 [1; 2; 3] [1; 2] (map z2c [7; 0]%Z)).
Proof. vm_compute. canon. Qed.
(** the lower triangle of a symmetric matrix *)
Definition sym_ls : list string := ["t"; "s"; "rsa 2 2 3 0"; "f"; "1 3 4"; "1 2 2"; "1.0 5.0 2.0"].
Lemma rb_sym : exists A, read_rb_csr exact (rb_text sym_ls) = Ok A /\ csr_entry A 1 0 = z2c 5 /\ csr_entry A 0 1 = z2c 0.
Proof. eexists. split; [vm_compute; reflexivity|]. split; vm_compute; canon. Qed.
(** formats: pointers with one digit each; one-digit row indices; values as written by Fortran *)
Definition fmt_ls (ptr val : string) : list string := ["t"; "s"; "rua 1 1 1 0"; "(2I1) (1I1) (1D8.1)"; ptr; "1"; val].
Lemma rb_fmt : read_rb_csc exact (rb_text (fmt_ls "1 2" "1.0E+02")) = Ok (mk_csc 1 1 1 [1; 2] [1] [z2c 100]) /\
  read_rb_csc exact (rb_text (fmt_ls "1 2" "1.0D+02")) = Ok (mk_csc 1 1 1 [1; 2] [1] [z2c 1]) /\
  read_rb_csc exact (rb_text (fmt_ls "12" "1.0E+02")) = Ok (mk_csc 1 1 1 [12; 1] [1] [z2c 0]).
Proof. split; [|split]; vm_compute; canon. Qed.
