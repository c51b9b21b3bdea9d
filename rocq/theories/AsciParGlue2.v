(** Glue for C62: the statements of Props_AsciPar.v. *)
From Coq Require Import QArith Qcanon.
From Verif Require Import Base Nondet SD Spec Sums FockSpec Ham PropsHamGlue DenseSpec DiisSpec Davidson DavSpec
  Asci AsciSpec AsciPar AsciParSpec AsciParProofs AsciParProofs4 AsciParGlue.
Local Open Scope nat_scope.

Lemma c62_gather P n (Ys : list (list Qc)) X : 1 < P -> length Ys = P ->
  (forall r, r < P -> length (nth r Ys []) = n / P + if r =? P - 1 then n mod P else 0) ->
  gather_coefficients P n Ys (repeat X P) = Ok (repeat (concat Ys) P).
Proof.
  intros HP L S. rewrite (last_split Ys []) by (destruct Ys; [cbn in L; lia|discriminate]).
  assert (LI : length (removelast Ys) = P - 1) by (rewrite removelast_firstn_len, firstn_length; lia).
  pose proof (Nat.div_mod n P ltac:(lia)) as DM. pose proof (Nat.mod_upper_bound n P ltac:(lia)) as MU.
  assert (EP : Datatypes.S (length (removelast Ys)) = P) by lia.
  pose proof (gather_split (n / P) (n mod P) (removelast Ys) (last Ys []) X) as K. rewrite EP in K.
  replace (n / P * P + n mod P) with n in K by lia. apply K; clear K.
  - apply Forall_forall. intros y Hy. apply (In_nth _ _ []) in Hy. destruct Hy as (r & Hr & <-). rewrite LI in Hr.
    rewrite removelast_firstn_len. rewrite <- (firstn_skipn (pred (length Ys)) Ys) in S. specialize (S r ltac:(lia)).
    rewrite app_nth1 in S by (rewrite firstn_length; lia). rewrite S. destruct (Nat.eqb_spec r (P - 1)); lia.
  - specialize (S (P - 1) ltac:(lia)). rewrite Nat.eqb_refl in S. rewrite <- S. f_equal.
    rewrite (last_split Ys []) at 2 by (destruct Ys; [cbn in L; lia|discriminate]). rewrite app_nth2 by lia. rewrite LI, Nat.sub_diag. reflexivity.
  - lia.
Qed.
Section C62.
  Variables (root : Qc -> Qc) (syev : nat -> list Qc -> res (list Qc * list Qc)).
  Variables (W : nat) (h : ints) (p : par) (dbg : bool) (st : settings) (na nb : nat).
  Notation n := (norb h).
  Notation P := (p_ranks p).
  Notation tgt a := (Nat.min (Nat.max (ntdets_min st) (wfn_size a * grow_factor st)) (ntdets_max st)).
  Hypothesis HW : spin_width W.
  Hypothesis Hn : n <= W / 2.
  Hypothesis Vs : forall p q r s, p < n -> q < n -> r < n -> s < n -> V_pqrs h p q r s = V_pqrs h r s p q.
  Hypothesis Hd : dbg = true -> na < n /\ nb < n.
  Hypothesis HP : 1 < P.
  Hypothesis Ht : (0 <= p_thr p)%Qc.
  Lemma HP0 : 0 < P. Proof. lia. Qed.
  Lemma c62_iter g m s : valid_dets W n na nb (wfn_dets s) -> length (snd s) = wfn_size s ->
    Nat.min (ncdets_max st) (wfn_size s) <= m -> (Z.of_nat (m * P) < 2 ^ 31)%Z ->
    if_returns (asci_iter_mpi root syev p g dbg W st h m s) (fun ss => exists s', ss = repeat s' P /\
      valid_dets W n na nb (wfn_dets s') /\ passed root W h (ncdets_max st) (p_thr p) (p_tol p) m s s').
  Proof. exact (iter_mpi_ok root syev W HW h Hn Vs p dbg st na nb Hd HP0 Ht g m s). Qed.
  Lemma c62_var g m s : (forall p q, p < n -> q < n -> T_pq h p q = T_pq h q p) ->
    (forall p q r s, p < n -> q < n -> r < n -> s < n -> V_pqrs h p q r s = V_pqrs h q p s r) -> exact_root root -> eigensolver syev ->
    valid_dets W n na nb (wfn_dets s) -> length (snd s) = wfn_size s ->
    Nat.min (ncdets_max st) (wfn_size s) <= m -> (Z.of_nat (m * P) < 2 ^ 31)%Z ->
    if_returns (asci_iter_mpi root syev p g dbg W st h m s) (fun ss => Forall (variational W h (p_thr p)) ss).
  Proof. exact (iter_mpi_variational root syev W HW h Hn Vs p dbg st na nb Hd HP0 Ht g m s). Qed.
  Lemma c62_grow fuel g s : 1 <= grow_factor st -> (Z.of_nat (ntdets_max st * P) < 2 ^ 31)%Z -> wfn_size s <= ntdets_max st ->
    valid_dets W n na nb (wfn_dets s) -> length (snd s) = wfn_size s ->
    if_returns (asci_grow_mpi root syev fuel p g dbg W st h s) (fun s' => wfn_size s' = ntdets_max st /\ valid_dets W n na nb (wfn_dets s') /\
      exists l, last (s :: l) s = s' /\
        path (fun a b => passed root W h (ncdets_max st) (p_thr p) (p_tol p) (tgt a) a b /\ wfn_size b = tgt a /\ wfn_size a < ntdets_max st) (s :: l)).
  Proof. intros Hg HM. exact (grow_mpi_ok root syev W HW h Hn Vs p dbg st na nb Hd HP0 Ht HM fuel g Hg s). Qed.
  Lemma c62_refine g s : (Z.of_nat (wfn_size s * P) < 2 ^ 31)%Z -> valid_dets W n na nb (wfn_dets s) -> length (snd s) = wfn_size s ->
    if_returns (asci_refine_mpi root syev p g dbg W st h s) (fun s' => wfn_size s' = wfn_size s /\ valid_dets W n na nb (wfn_dets s') /\
      exists l, 1 <= length l <= max_refine_iter st /\
        path (fun a b => passed root W h (ncdets_max st) (p_thr p) (p_tol p) (wfn_size s) a b /\ wfn_size b = wfn_size s) (s :: l) /\
        last (s :: l) s = s' /\
        (Qcabs (wfn_energy s' - wfn_energy (last (removelast (s :: l)) s)) < refine_energy_tol st)%Qc).
  Proof. intros HM. exact (refine_mpi_ok root syev W HW h Hn Vs p dbg st na nb Hd HP0 Ht (max_refine_iter st) g (wfn_size s) HM s eq_refl). Qed.
  Lemma c62_few g m s r : valid_dets W n na nb (wfn_dets s) -> length (snd s) = wfn_size s ->
    Nat.min (ncdets_max st) (wfn_size s) <= m -> m < P -> (Z.of_nat (P * P) < 2 ^ 31)%Z ->
    ~ asci_iter_mpi root syev p g dbg W st h m s (Ok r).
  Proof. intros A B C D E. exact (iter_few root syev W HW h Hn Vs p dbg st na nb Hd HP0 Ht g m s A B C ltac:(nia) D r). Qed.
  Lemma c62_first fuel g s r D : wfn_dets s = [D] -> in_space W n D -> size_is (alpha W D) na -> size_is (beta W D) nb -> length (snd s) = 1 ->
    (ham W n (T_pq h) (V_pqrs h) D D < - p_thr p)%Qc ->
    (forall t, in_space W n t -> size_is (alpha W t) na -> size_is (beta W t) nb -> t <> D ->
       (ham W n (T_pq h) (V_pqrs h) D D < ham W n (T_pq h) (V_pqrs h) t t)%Qc) -> root 0%Qc = 0%Qc ->
    1 <= ncdets_max st -> 1 < ntdets_max st -> 1 <= grow_factor st -> (Z.of_nat (ntdets_max st * P) < 2 ^ 31)%Z ->
    Nat.min (Nat.max (ntdets_min st) (grow_factor st)) (ntdets_max st) mod P <> 0 ->
    ~ asci_grow_mpi root syev fuel p g dbg W st h s (Ok r).
  Proof.
    intros Es G A B LX HD1 HD2 HR Hc Hm Hg HM Ne. refine (grow_first root syev W HW h Hn Vs p dbg st na nb Hd HP0 Ht D HR HD1 HD2 fuel g s Es G A B LX Hc Hm Hg HM _ r).
    replace (wfn_size s) with 1 by (change (1 = length (wfn_dets s)); rewrite Es; reflexivity). rewrite Nat.mul_1_l. exact Ne.
  Qed.
End C62.
