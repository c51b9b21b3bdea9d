(** Concrete cases for C69. *)
From Coq Require Import QArith Qcanon Lqa.
From Verif Require Import Base SD Sums Ham Asci AsciSort Mem MemProofs DenseSpec DenseProofs DiisSpec DiisProofs DiisProofs2 DavSpec DavProofs DavProofs2 DavProofs3 ExpandProofs DavEx Lobpcg LobpcgSpec LobpcgProofs LobpcgProofs2 LobpcgProofs3.
Local Open Scope nat_scope.

Definition mult (n : nat) (M X : matrix) : res matrix := Ok (map (fun c => map (matvec n (entry M) c) (seq 0 n)) X).
Lemma mult_ok n M : multiplies_blocks n (entry M) (mult n M).
Proof.
  intros k X Y (L & C) H. injection H as <-. split; [apply map_length|]. intros j Hj. unfold entry at 2. rewrite (nth_map_cols _ X [] j Hj). split; [rewrite map_length, seq_length; reflexivity|]. intros i Hi. rewrite nth_seq_map by exact Hi. reflexivity.
Qed.
Lemma id_keeps n : keeps_shape n default_preconditioner.
Proof. intros k X Y C H. injection H as <-. exact C. Qed.
Definition same (a b : matrix) : bool := if list_eq_dec (list_eq_dec Qc_eq_dec) a b then true else false.
Lemma same_eq a b : same a b = true -> a = b.
Proof. unfold same. destruct (list_eq_dec _ a b); [auto|discriminate]. Qed.

(** the matrix (0, 12; 12, 7) with eigenvalues -9 and 16 *)
Definition lx_A : matrix := [[0%Qc; inject 12]; [inject 12; inject 7]].
(** diagonalises numbers, that matrix and zero matrices *)
Definition lx_syev (k : nat) (M : matrix) : res (list Qc * matrix) :=
  if k =? 1 then Ok ([entry M 0 0], [[1%Qc]])
  else if (k =? 2) && same M lx_A then Ok ([(- inject 9)%Qc; inject 16], [[q45; (- q35)%Qc]; [q35; q45]])
  else if same M (repeat (repeat 0%Qc k) k) then Ok (repeat 0%Qc k, map (unit_vector k) (seq 0 k)) else Err Throw.
Definition lx_potrf (k : nat) (G : matrix) : res matrix :=
  if k =? 1 then (let r := ex_root (entry G 0 0) in if Qc_eq_dec r 0 then Err Throw else Ok [[r]]) else Err Throw.
Definition lx_gelqf (k m : nat) (M : matrix) : res matrix := if m =? 1 then Ok [[1%Qc]] else Err Throw.
Lemma unit_entry k i j : i < k -> j < k -> nth i (nth j (map (unit_vector k) (seq 0 k)) []) 0%Qc = if i =? j then 1%Qc else 0%Qc.
Proof. intros Hi Hj. rewrite (nth_map_seq (unit_vector k)) by exact Hj. unfold unit_vector. rewrite nth_seq_map by exact Hi. reflexivity. Qed.
Lemma nth_repeat0 k i : nth i (repeat 0%Qc k) 0%Qc = 0%Qc.
Proof. revert i. induction k; intros [|i]; cbn; auto. Qed.
Lemma nth_repeat_row (B : Type) (x : B) k j : j < k -> nth j (repeat x k) x = x.
Proof. revert j. induction k; intros [|j] H; cbn; try lia; auto. apply IHk. lia. Qed.
Lemma lx_syev_ok : diagonaliser lx_syev.
Proof.
  intros k M W C H (LM & CM) SM. unfold lx_syev in H. destruct (Nat.eqb_spec k 1) as [->|ne1].
  - injection H as <- <-. split; [reflexivity|]. split; [split; [reflexivity|intros c [<-|[]]; reflexivity]|]. split; [intros [|a] [|b] Ha Hb; try lia; apply Qc_is_canon; vm_compute; reflexivity|].
    split; [intros i j Hij Hj; cbn in Hj; replace i with j by lia; apply Qcle_refl|]. split; [intros [|a] [|b] Ha Hb; try lia; apply Qc_is_canon; vm_compute; reflexivity|].
    intros [|j] [|i] Hj Hi; try lia. unfold matvec, entry. cbn [nth]. unfold Sigma. cbn [seq sum nth]. ring.
  - destruct ((k =? 2) && same M lx_A) eqn:E.
    + apply andb_prop in E. destruct E as (Ek & Em). apply Nat.eqb_eq in Ek. apply same_eq in Em. subst k M. injection H as <- <-. split; [reflexivity|]. split; [split; [reflexivity|intros c [<-|[<-|[]]]; reflexivity]|].
      split; [intros [|[|a]] [|[|b]] Ha Hb; try lia; apply Qc_is_canon; vm_compute; reflexivity|]. split; [intros [|[|i]] [|[|j]] Hij Hj; cbn in Hj; try lia; try apply Qcle_refl; vm_compute; discriminate|].
      split; [intros [|[|a]] [|[|b]] Ha Hb; try lia; apply Qc_is_canon; vm_compute; reflexivity|]. intros [|[|j]] [|[|i]] Hj Hi; try lia; apply Qc_is_canon; vm_compute; reflexivity.
    + destruct (same M (repeat (repeat 0%Qc k) k)) eqn:E0; [|discriminate]. apply same_eq in E0. injection H as <- <-.
      assert (EM : forall i j, entry M i j = 0%Qc). { intros i j. subst M. unfold entry. destruct (Nat.lt_ge_cases j k) as [Hj|Hj]; [rewrite (nth_indep _ [] (repeat 0%Qc k)) by (rewrite repeat_length; exact Hj); rewrite nth_repeat_row by exact Hj; apply nth_repeat0|]. rewrite (nth_overflow (repeat (repeat 0%Qc k) k)) by (rewrite repeat_length; exact Hj). destruct i; reflexivity. }
      split; [apply repeat_length|]. split; [split; [rewrite map_length, seq_length; reflexivity|intros c I; apply in_map_iff in I; destruct I as (x & <- & _); unfold unit_vector; rewrite map_length, seq_length; reflexivity]|].
      split; [apply units_orth; lia|]. split; [intros i j _ _; rewrite !nth_repeat0; apply Qcle_refl|]. split.
      * intros a b Ha Hb. rewrite (Sigma_ext k _ (fun j => (if j =? a then 1 else 0) * (if b =? j then 1 else 0))%Qc) by (intros j Hj; unfold entry; rewrite !unit_entry by assumption; rewrite (Nat.eqb_sym a j); reflexivity). rewrite Sigma_delta by exact Ha. rewrite Nat.eqb_sym. reflexivity.
      * intros j i Hj Hi. rewrite nth_repeat0. unfold matvec. rewrite (Sigma_ext k _ (fun _ => 0)%Qc) by (intros l Hl; rewrite EM; ring). rewrite LinRespProofs.Sigma_0. ring.
Qed.
Lemma lx_potrf_ok : cholesky lx_potrf.
Proof.
  intros k G L H _ _. unfold lx_potrf in H. destruct (Nat.eqb_spec k 1) as [->|]; [|discriminate]. destruct (Qc_eq_dec (ex_root (entry G 0 0)) 0) as [|NZ]; [discriminate|]. injection H as <-. split.
  - intros [|i] Hi; [exact NZ|lia].
  - intros [|i] [|j] Hji Hi; try lia. unfold Sigma. cbn [seq sum]. change (entry [[ex_root (entry G 0 0)]] 0 0) with (ex_root (entry G 0 0)). destruct (ex_root_exact (entry G 0 0)) as [Z|E]; [contradiction|]. rewrite E. ring.
Qed.
Lemma lx_gelqf_ok : orthogonal_factor lx_gelqf.
Proof.
  intros k m M Q H _. unfold lx_gelqf in H. destruct (Nat.eqb_spec m 1) as [->|]; [|discriminate]. injection H as <-. split; [split; [reflexivity|intros c [<-|[]]; reflexivity]|]. intros [|a] [|b] Ha Hb; try lia. apply Qc_is_canon; vm_compute; reflexivity.
Qed.
Definition lx_guess : matrix := [[1%Qc; 0%Qc]].
Definition lx_sett (t : Qc) : lobpcg_settings := mk_lobpcg_settings t 10 true.
Definition lx_run : res (nat + l_output) := lobpcg_simple ex_root lx_syev lx_potrf lx_gelqf (mult 2 lx_A) default_preconditioner (lx_sett (Q2Qc (Qmake 1 1000))) 2 1 1 lx_guess.
Lemma lx_guess_ok : symmetric2 2 (entry lx_A) /\ columns 2 1 lx_guess /\ orthonormal 2 1 lx_guess.
Proof.
  split; [intros [|[|p]] [|[|q]] Hp Hq; try lia; reflexivity|]. split; [split; [reflexivity|intros c [<-|[]]; reflexivity]|]. intros [|a] [|b] Ha Hb; try lia. apply Qc_is_canon; vm_compute; reflexivity.
Qed.
Definition lx_check (conv : bool) (lam : list Qc) (n : nat) (r : res (nat + l_output)) : bool :=
  match r with Ok (inr o) => eqb (o_converged o) conv && same [o_LAMR o] [lam] && Nat.eqb (length (o_conv o)) n | _ => false end.
Lemma lx_check_ok conv lam n r : lx_check conv lam n r = true -> exists o, r = Ok (inr o) /\ o_converged o = conv /\ o_LAMR o = lam /\ length (o_conv o) = n.
Proof.
  unfold lx_check. destruct r as [[m|o]|e]; try discriminate. intros H. apply andb_prop in H. destruct H as (H & H3). apply andb_prop in H. destruct H as (H1 & H2). exists o. split; [reflexivity|]. split; [apply eqb_prop; exact H1|]. split; [apply same_eq in H2; injection H2 as H2; exact H2|apply Nat.eqb_eq; exact H3].
Qed.
Lemma lx_run_ok : exists o, lx_run = Ok (inr o) /\ o_converged o = true /\ o_LAMR o = [(- inject 9)%Qc] /\ length (o_conv o) = 2.
Proof. apply lx_check_ok. vm_compute. reflexivity. Qed.

(** more columns than the space has dimensions *)
Definition lx_swap : matrix := [[0%Qc; 1%Qc]; [1%Qc; 0%Qc]].
Lemma workspace_overrun : exists N K NR A syev potrf gelqf op kop sett V, symmetric2 N A /\ multiplies_blocks N A op /\ keeps_shape N kop /\ diagonaliser syev /\ cholesky potrf /\ orthogonal_factor gelqf /\ columns N K V /\ NR <= K /\
  lobpcg_simple ex_root syev potrf gelqf op kop sett N K NR V = Err UB.
Proof.
  exists 2, 5, 1, (entry lx_swap), lx_syev, lx_potrf, lx_gelqf, (mult 2 lx_swap), default_preconditioner, (lx_sett (Q2Qc (Qmake 1 1000))), (repeat [1%Qc; 0%Qc] 5).
  split; [intros [|[|p]] [|[|q]] Hp Hq; try lia; reflexivity|]. split; [apply mult_ok|]. split; [apply id_keeps|]. split; [exact lx_syev_ok|]. split; [exact lx_potrf_ok|]. split; [exact lx_gelqf_ok|].
  split; [split; [reflexivity|intros c I; apply repeat_spec in I; subst c; reflexivity]|]. split; [lia|]. vm_compute. reflexivity.
Qed.
(** a guess that is not normalised *)
Lemma guess_kept : exists N K NR A syev potrf gelqf op kop sett V o b, symmetric2 N A /\ multiplies_blocks N A op /\ keeps_shape N kop /\ diagonaliser syev /\ cholesky potrf /\ orthogonal_factor gelqf /\ columns N K V /\ NR <= K /\ 0 < NR /\
  lobpcg_simple ex_root syev potrf gelqf op kop sett N K NR V = Ok (inr o) /\ o_converged o = true /\ spectrum_above N A b /\ (nth 0 (o_LAMR o) 0 < b)%Qc.
Proof.
  assert (R : exists o, lobpcg_simple ex_root lx_syev lx_potrf lx_gelqf (mult 1 [[1%Qc]]) default_preconditioner (lx_sett (Q2Qc (Qmake 1 2))) 1 1 1 [[Q2Qc (Qmake 3 4)]] = Ok (inr o) /\ o_converged o = true /\ o_LAMR o = [Q2Qc (Qmake 9 16)] /\ length (o_conv o) = 1) by (apply lx_check_ok; vm_compute; reflexivity).
  destruct R as (o & R & C & LA & _). exists 1, 1, 1, (entry [[1%Qc]]), lx_syev, lx_potrf, lx_gelqf, (mult 1 [[1%Qc]]), default_preconditioner, (lx_sett (Q2Qc (Qmake 1 2))), [[Q2Qc (Qmake 3 4)]], o, 1%Qc.
  split; [intros [|p] [|q] Hp Hq; try lia; reflexivity|]. split; [apply mult_ok|]. split; [apply id_keeps|]. split; [exact lx_syev_ok|]. split; [exact lx_potrf_ok|]. split; [exact lx_gelqf_ok|].
  split; [split; [reflexivity|intros c [<-|[]]; reflexivity]|]. split; [lia|]. split; [lia|]. split; [exact R|]. split; [exact C|]. split.
  - intros x. unfold dot, expectation, matvec, entry, Sigma. cbn [seq sum nth]. rewrite Qcmult_1_l. match goal with |- (?a <= ?b)%Qc => replace b with a by ring end. apply Qcle_refl.
  - rewrite LA. cbn [nth]. vm_compute. reflexivity.
Qed.
Lemma nub_table k M : lx_syev k M <> Err UB /\ lx_potrf k M <> Err UB.
Proof. unfold lx_syev, lx_potrf. split; repeat match goal with |- context [if ?b then _ else _] => destruct b end; discriminate. Qed.
