(** Proofs about the driver's keywords. *)
From Coq Require Import Ascii String QArith Qcanon ZArith NArith Bool.
From Verif Require Import Base Bits SD Spec Sums FockSpec Ham Text IO IOSpec Ini IniSpec IniGlue DenseSpec Driver DriverSpec.
Local Open Scope nat_scope.

Lemma bind_ok {A B} (m : res A) (f : A -> res B) y : bind m f = Ok y <-> exists x, m = Ok x /\ f x = Ok y.
Proof.
  destruct m as [x|e]; cbn [bind]; split.
  - intros H. exists x. auto.
  - intros (x' & E & H). injection E as <-. exact H.
  - discriminate.
  - intros (x & E & _). discriminate.
Qed.
Lemma stoul_range t n : stoul t = Ok n -> (0 <= n < 2 ^ 64)%Z.
Proof.
  unfold stoul. destruct (take_sign _) as [neg s]. destruct (take_while _ _) as [|c l]; [discriminate|].
  destruct (Z.ltb_spec (Z.of_N (digits_val (c :: l))) (2 ^ 64)) as [L|L]; [|discriminate]. intros H. injection H as <-.
  destruct neg; [apply Z.mod_pos_bound; reflexivity|]. split; [apply N2Z.is_nonneg|exact L].
Qed.

Section KEYS.
  Variables (d : dict (dict text)) (c : content).
  Hypothesis Hd : forall s k, query_name s -> query_name k ->
       get_string d (query s k) = match c_value c s k with Some v => Ok v | None => Err Throw end /\
       contains_data d (query s k) = Ok (match c_value c s k with Some _ => true | None => false end).
  Lemma opt_ok {A} (f : text -> res A) (reads : text -> A -> Prop) s k key dflt x :
    (forall t y, f t = Ok y <-> reads t y) -> lit key = query (lit s) (lit k) -> query_name (lit s) -> query_name (lit k) ->
    (opt (fun d q => do t <- get_string d q; f t) d key dflt = Ok x <-> chosen c s k reads dflt x).
  Proof.
    intros Hf Hk Hs Hq. unfold opt, chosen. rewrite Hk. destruct (Hd (lit s) (lit k) Hs Hq) as [E1 E2]. rewrite E1, E2. cbn [bind].
    destruct (c_value c (lit s) (lit k)) as [t|]; cbn [bind]; [apply Hf|]. split; intros H; [injection H as <-|rewrite H]; reflexivity.
  Qed.
  Lemma get_ok {A} (f : text -> res A) (reads : text -> A -> Prop) s k key x :
    (forall t y, f t = Ok y <-> reads t y) -> lit key = query (lit s) (lit k) -> query_name (lit s) -> query_name (lit k) ->
    ((do t <- get_string d (lit key); f t) = Ok x <-> given c s k reads x).
  Proof.
    intros Hf Hk Hs Hq. unfold given. rewrite Hk. destruct (Hd (lit s) (lit k) Hs Hq) as [E1 E2]. rewrite E1.
    destruct (c_value c (lit s) (lit k)) as [t|]; cbn [bind].
    - rewrite Hf. split; [eauto|]. intros (t' & E & H). injection E as <-. exact H.
    - split; [discriminate|]. intros (t' & E & H). discriminate.
  Qed.
End KEYS.
Lemma size_reads t (n : Z) : stoul t = Ok n <-> a_size t n. Proof. reflexivity. Qed.
Lemma int_reads t (n : Z) : stoi t = Ok n <-> an_int t n. Proof. reflexivity. Qed.
Lemma double_reads rnd t x : stod rnd t = Ok x <-> a_double rnd t x. Proof. reflexivity. Qed.
Lemma switch_reads t b : Ok ((if text_eq_dec t (lit "TRUE") then true else false) || (if text_eq_dec t (lit "ON") then true else false)) = Ok b <-> a_switch t b.
Proof.
  unfold a_switch.
  assert (E : (if text_eq_dec t (lit "TRUE") then true else false) || (if text_eq_dec t (lit "ON") then true else false) = true <-> t = lit "TRUE" \/ t = lit "ON").
  { destruct (text_eq_dec t (lit "TRUE")), (text_eq_dec t (lit "ON")); cbn [orb]; split; intros H; auto; try discriminate. destruct H; contradiction. }
  rewrite <- E. generalize ((if text_eq_dec t (lit "TRUE") then true else false) || (if text_eq_dec t (lit "ON") then true else false)). intros v. split; intros H.
  - injection H as <-. tauto.
  - f_equal. destruct v, b; try reflexivity; [symmetry|]; apply H; reflexivity.
Qed.
Lemma text_reads (t x : text) : Ok t = Ok x <-> a_text t x.
Proof. unfold a_text. split; intros H; [injection H as <-|rewrite H]; reflexivity. Qed.
Lemma query_name_dec t : match t with [] => false | _ => negb (is_space (hd sp t)) && negb (is_space (last t sp)) && forallb (fun c => negb (Ascii.eqb c ".")) t end = true -> query_name t.
Proof.
  destruct t as [|a t]; [discriminate|]. intros H. apply andb_prop in H. destruct H as [H H3]. apply andb_prop in H. destruct H as [H1 H2].
  apply negb_true_iff in H1, H2. split; [split; [discriminate|split; auto]|]. intros x Hx. rewrite forallb_forall in H3. specialize (H3 x Hx).
  apply negb_true_iff in H3. apply Ascii.eqb_neq in H3. intros [E|[]]. congruence.
Qed.

Lemma stoi_range t n : stoi t = Ok n -> (- 2 ^ 31 <= n < 2 ^ 31)%Z.
Proof.
  unfold stoi, sto. destruct (take_sign _) as [neg s]. destruct (take_while _ _) as [|c l]; [discriminate|]. cbv zeta.
  set (v := if neg then _ else _). change (2 ^ Z.of_N (32 - 1))%Z with (2 ^ 31)%Z.
  destruct (Z.leb_spec (- 2 ^ 31) v), (Z.ltb_spec v (2 ^ 31)); cbn [andb]; intros HH; try discriminate. injection HH as <-. auto.
Qed.
Section KEYS2.
  Variables (rnd : Q -> res Qc) (d : dict (dict text)) (c : content).
  Hypothesis Hd : forall s k, query_name s -> query_name k ->
       get_string d (query s k) = match c_value c s k with Some v => Ok v | None => Err Throw end /\
       contains_data d (query s k) = Ok (match c_value c s k with Some _ => true | None => false end).
  Definition named (s k key : string) : bool :=
    (if text_eq_dec (lit key) (query (lit s) (lit k)) then true else false) &&
    (match lit s with [] => false | _ => negb (is_space (hd sp (lit s))) && negb (is_space (last (lit s) sp)) && forallb (fun c => negb (Ascii.eqb c ".")) (lit s) end) &&
    (match lit k with [] => false | _ => negb (is_space (hd sp (lit k))) && negb (is_space (last (lit k) sp)) && forallb (fun c => negb (Ascii.eqb c ".")) (lit k) end).
  Lemma named_ok s k key : named s k key = true -> lit key = query (lit s) (lit k) /\ query_name (lit s) /\ query_name (lit k).
  Proof.
    intros H. unfold named in H. apply andb_prop in H. destruct H as [H H3]. apply andb_prop in H. destruct H as [H1 H2].
    destruct (text_eq_dec (lit key) (query (lit s) (lit k))); [|discriminate]. split; auto. split; apply query_name_dec; auto.
  Qed.
  Lemma opt_size s k key dflt x : named s k key = true -> (opt get_size d key dflt = Ok x <-> chosen c s k a_size dflt x).
  Proof. intros H. apply named_ok in H. apply (opt_ok d c Hd stoul); try tauto; apply size_reads. Qed.
  Lemma opt_int s k key dflt x : named s k key = true -> (opt get_int d key dflt = Ok x <-> chosen c s k an_int dflt x).
  Proof. intros H. apply named_ok in H. apply (opt_ok d c Hd stoi); try tauto; apply int_reads. Qed.
  Lemma opt_double s k key dflt x : named s k key = true -> (opt (get_double rnd) d key dflt = Ok x <-> chosen c s k (a_double rnd) dflt x).
  Proof. intros H. apply named_ok in H. apply (opt_ok d c Hd (stod rnd)); try tauto; apply double_reads. Qed.
  Lemma opt_bool s k key dflt x : named s k key = true -> (opt get_bool d key dflt = Ok x <-> chosen c s k a_switch dflt x).
  Proof. intros H. apply named_ok in H. apply (opt_ok d c Hd (fun t => Ok ((if text_eq_dec t (lit "TRUE") then true else false) || (if text_eq_dec t (lit "ON") then true else false)))); try tauto. apply switch_reads. Qed.
  Lemma opt_text s k key dflt x : named s k key = true -> (opt get_string d key dflt = Ok x <-> chosen c s k a_text dflt x).
  Proof.
    intros H. apply named_ok in H. rewrite <- (opt_ok d c Hd (fun t => Ok t) a_text s k key dflt x); try tauto; [|apply text_reads].
    unfold opt. destruct (contains_data d (lit key)) as [[]|]; cbn [bind]; try tauto. destruct (get_string d (lit key)); cbn [bind]; tauto.
  Qed.
  Lemma required_ok fcidump nel : driver_required d = Ok (fcidump, nel) <-> asks_for c fcidump nel.
  Proof.
    unfold driver_required, asks_for.
    assert (F : get_string d (lit "CI.FCIDUMP") = Ok fcidump <-> given c "CI" "FCIDUMP" a_text fcidump).
    { destruct (named_ok "CI" "FCIDUMP" "CI.FCIDUMP" eq_refl) as (E1 & E2 & E3).
      rewrite <- (get_ok d c Hd (fun t => Ok t) a_text "CI" "FCIDUMP" "CI.FCIDUMP" fcidump text_reads); auto. destruct (get_string d (lit "CI.FCIDUMP")); cbn [bind]; tauto. }
    assert (A : get_size d (lit "CI.NALPHA") = Ok nel <-> given c "CI" "NALPHA" a_size nel).
    { destruct (named_ok "CI" "NALPHA" "CI.NALPHA" eq_refl) as (E1 & E2 & E3). apply (get_ok d c Hd stoul a_size); auto. apply size_reads. }
    assert (B : get_size d (lit "CI.NBETA") = Ok nel <-> given c "CI" "NBETA" a_size nel).
    { destruct (named_ok "CI" "NBETA" "CI.NBETA" eq_refl) as (E1 & E2 & E3). apply (get_ok d c Hd stoul a_size); auto. apply size_reads. }
    rewrite <- F, <- A, <- B. rewrite bind_ok. split.
    - intros (x & X1 & H). apply bind_ok in H. destruct H as (y & Y1 & H). apply bind_ok in H. destruct H as (z & Z1 & H).
      destruct (Z.eqb_spec y z) as [->|]; [|discriminate]. cbn [negb] in H. injection H as <- <-. auto.
    - intros (H1 & H2 & H3). exists fcidump. split; auto. rewrite H2. cbn [bind]. rewrite H3. cbn [bind]. rewrite Z.eqb_refl. reflexivity.
  Qed.
  Lemma job_ok j : driver_job d = Ok j <-> chosen c "CI" "JOB" a_job JobMCSCF j.
  Proof.
    unfold driver_job. rewrite bind_ok. unfold chosen at 1. split.
    - intros (x & X & H). apply (opt_text "CI" "JOB" "CI.JOB" _ _ eq_refl) in X. unfold chosen in X. destruct (c_value c (lit "CI") (lit "JOB")) as [t|].
      + red in X. subst x. red. destruct (text_eq_dec t (lit "CI")); [injection H as <-; auto|]. destruct (text_eq_dec t (lit "MCSCF")); [injection H as <-; auto|discriminate].
      + subst x. revert H. vm_compute. intros H. injection H as <-. reflexivity.
    - intros H. destruct (c_value c (lit "CI") (lit "JOB")) as [t|] eqn:E.
      + exists t. split; [apply (opt_text "CI" "JOB" "CI.JOB" _ _ eq_refl); unfold chosen; rewrite E; reflexivity|].
        destruct H as [(-> & ->)|(-> & ->)]; reflexivity.
      + exists (lit "MCSCF"). split; [apply (opt_text "CI" "JOB" "CI.JOB" _ _ eq_refl); unfold chosen; rewrite E; reflexivity|]. subst j. reflexivity.
  Qed.
  Lemma exp_ok j : driver_expansion d = Ok j <-> chosen c "CI" "EXPANSION" an_expansion ExpCAS j.
  Proof.
    unfold driver_expansion. rewrite bind_ok. unfold chosen at 1. split.
    - intros (x & X & H). apply (opt_text "CI" "EXPANSION" "CI.EXPANSION" _ _ eq_refl) in X. unfold chosen in X. destruct (c_value c (lit "CI") (lit "EXPANSION")) as [t|].
      + red in X. subst x. red. destruct (text_eq_dec t (lit "CAS")); [injection H as <-; auto|]. destruct (text_eq_dec t (lit "ASCI")); [injection H as <-; auto|discriminate].
      + subst x. revert H. vm_compute. intros H. injection H as <-. reflexivity.
    - intros H. destruct (c_value c (lit "CI") (lit "EXPANSION")) as [t|] eqn:E.
      + exists t. split; [apply (opt_text "CI" "EXPANSION" "CI.EXPANSION" _ _ eq_refl); unfold chosen; rewrite E; reflexivity|].
        destruct H as [(-> & ->)|(-> & ->)]; reflexivity.
      + exists (lit "CAS"). split; [apply (opt_text "CI" "EXPANSION" "CI.EXPANSION" _ _ eq_refl); unfold chosen; rewrite E; reflexivity|]. subst j. reflexivity.
  Qed.
  Lemma chosen_size_range s k dflt x : (0 <= dflt < 2 ^ 64)%Z -> chosen c s k a_size dflt x -> (0 <= x < 2 ^ 64)%Z.
  Proof. intros H. unfold chosen. destruct (c_value c (lit s) (lit k)) as [t|]; [apply stoul_range|]. intros ->. exact H. Qed.
  Lemma space_ok norb ni na nv : (Z.of_nat norb < 2 ^ 31)%Z -> (driver_space d norb = Ok (Z.of_nat ni, Z.of_nat na, Z.of_nat nv) <->
    chosen c "CI" "NINACTIVE" a_size 0%Z (Z.of_nat ni) /\ chosen c "CI" "NACTIVE" a_size (Z.of_nat (norb - ni)) (Z.of_nat na) /\ ni + na + nv = norb /\ ni < norb /\ na <= 32).
  Proof.
    intros Hn. unfold driver_space. cbv zeta. rewrite bind_ok. change (2 ^ 31)%Z with 2147483648%Z in Hn. 
    assert (P : (2 ^ 64 = 18446744073709551616)%Z) by reflexivity. split.
    - intros (a & A & H). apply (opt_size "CI" "NINACTIVE" "CI.NINACTIVE" _ _ eq_refl) in A. pose proof A as RA. apply chosen_size_range in RA; [|lia].
      destruct (Z.leb_spec (Z.of_nat norb) a) as [|L]; [discriminate|]. apply bind_ok in H. destruct H as (b & B & H).
      apply (opt_size "CI" "NACTIVE" "CI.NACTIVE" _ _ eq_refl) in B.
      assert (W1 : size_wrap (Z.of_nat norb - a) = (Z.of_nat norb - a)%Z) by (apply Z.mod_small; lia). rewrite W1 in B.
      pose proof B as RB. apply chosen_size_range in RB; [|lia].
      destruct (Z.ltb_spec (Z.of_nat norb) (size_wrap (a + b))) as [|L2]; [discriminate|]. destruct (Z.ltb_spec 32 b) as [|L3]; [discriminate|].
      assert (W2 : size_wrap (a + b) = (a + b)%Z) by (apply Z.mod_small; lia). rewrite W2 in L2.
      assert (W3 : size_wrap (Z.of_nat norb - b - a) = (Z.of_nat norb - b - a)%Z) by (apply Z.mod_small; lia). rewrite W3 in H.
      injection H as -> -> H. replace (Z.of_nat (norb - ni)) with (Z.of_nat norb - Z.of_nat ni)%Z by lia. split; auto. split; auto. lia.
    - intros (A & B & H1 & H2 & H3). exists (Z.of_nat ni). split; [apply (opt_size "CI" "NINACTIVE" "CI.NINACTIVE" _ _ eq_refl); auto|].
      destruct (Z.leb_spec (Z.of_nat norb) (Z.of_nat ni)) as [|L]; [lia|].
      assert (W1 : size_wrap (Z.of_nat norb - Z.of_nat ni) = Z.of_nat (norb - ni)) by (unfold size_wrap; rewrite Z.mod_small; lia). rewrite W1.
      apply (opt_size "CI" "NACTIVE" "CI.NACTIVE" _ _ eq_refl) in B. rewrite B. cbn [bind].
      assert (W2 : size_wrap (Z.of_nat ni + Z.of_nat na) = (Z.of_nat ni + Z.of_nat na)%Z) by (apply Z.mod_small; lia). rewrite W2.
      destruct (Z.ltb_spec (Z.of_nat norb) (Z.of_nat ni + Z.of_nat na)) as [|L2]; [lia|]. destruct (Z.ltb_spec 32 (Z.of_nat na)) as [|L3]; [lia|].
      assert (W3 : size_wrap (Z.of_nat norb - Z.of_nat na - Z.of_nat ni) = Z.of_nat nv) by (unfold size_wrap; rewrite Z.mod_small; lia). rewrite W3. reflexivity.
  Qed.
  Lemma space_nonneg norb ni na nv : (Z.of_nat norb < 2 ^ 31)%Z -> driver_space d norb = Ok (ni, na, nv) -> (0 <= ni /\ 0 <= na /\ 0 <= nv)%Z.
  Proof.
    intros Hn H. unfold driver_space in H. cbv zeta in H. apply bind_ok in H. destruct H as (a & A & H). apply (opt_size "CI" "NINACTIVE" "CI.NINACTIVE" _ _ eq_refl) in A.
    pose proof A as RA. apply chosen_size_range in RA; [|lia]. destruct (Z.of_nat norb <=? a)%Z; [discriminate|].
    apply bind_ok in H. destruct H as (b & B & H). apply (opt_size "CI" "NACTIVE" "CI.NACTIVE" _ _ eq_refl) in B.
    pose proof B as RB. apply chosen_size_range in RB; [|apply Z.mod_pos_bound; reflexivity].
    destruct (Z.of_nat norb <? size_wrap (a + b))%Z; [discriminate|]. destruct (32 <? b)%Z; [discriminate|]. injection H as <- <- <-.
    split; [lia|]. split; [lia|]. apply Z.mod_pos_bound. reflexivity.
  Qed.
  Lemma mcscf_ok m : driver_mcscf rnd d = Ok m <-> mcscf_as_asked rnd c m.
  Proof.
    unfold mcscf_as_asked. rewrite <- (opt_size "MCSCF" "MAX_MACRO_ITER" "MCSCF.MAX_MACRO_ITER" 100%Z _ eq_refl),
      <- (opt_double "MCSCF" "MAX_ORB_STEP" "MCSCF.MAX_ORB_STEP" (Q2Qc (1 # 2)) _ eq_refl),
      <- (opt_double "MCSCF" "MCSCF_ORB_TOL" "MCSCF.MCSCF_ORB_TOL" (Q2Qc (5 # 1000000)) _ eq_refl),
      <- (opt_bool "MCSCF" "ENABLE_DIIS" "MCSCF.ENABLE_DIIS" true _ eq_refl),
      <- (opt_size "MCSCF" "DIIS_START_ITER" "MCSCF.DIIS_START_ITER" 3%Z _ eq_refl),
      <- (opt_size "MCSCF" "DIIS_NKEEP" "MCSCF.DIIS_NKEEP" 10%Z _ eq_refl),
      <- (opt_double "MCSCF" "CI_RES_TOL" "MCSCF.CI_RES_TOL" (Q2Qc (1 # 100000000)) _ eq_refl),
      <- (opt_size "MCSCF" "CI_MAX_SUB" "MCSCF.CI_MAX_SUB" 20%Z _ eq_refl),
      <- (opt_double "MCSCF" "CI_MATEL_TOL" "MCSCF.CI_MATEL_TOL" (Q2Qc (1 # 4503599627370496)) _ eq_refl).
    unfold driver_mcscf. split.
    - intros H. apply bind_ok in H; destruct H as (x0 & X0 & H). apply bind_ok in H; destruct H as (x1 & X1 & H). apply bind_ok in H; destruct H as (x2 & X2 & H). apply bind_ok in H; destruct H as (x3 & X3 & H). apply bind_ok in H; destruct H as (x4 & X4 & H). apply bind_ok in H; destruct H as (x5 & X5 & H). apply bind_ok in H; destruct H as (x6 & X6 & H). apply bind_ok in H; destruct H as (x7 & X7 & H). apply bind_ok in H; destruct H as (x8 & X8 & H).
      injection H as <-. cbn [k_max_macro k_max_step k_orb_tol k_diis k_diis_start k_diis_nkeep k_ci_tol k_ci_sub k_ci_matel]. tauto.
    - destruct m as [m1 m2 m3 m4 m5 m6 m7 m8 m9]. cbn [k_max_macro k_max_step k_orb_tol k_diis k_diis_start k_diis_nkeep k_ci_tol k_ci_sub k_ci_matel]. intros (H1 & H2 & H3 & H4 & H5 & H6 & H7 & H8 & H9).
      rewrite H1; cbn [bind]. rewrite H2; cbn [bind]. rewrite H3; cbn [bind]. rewrite H4; cbn [bind]. rewrite H5; cbn [bind]. rewrite H6; cbn [bind]. rewrite H7; cbn [bind]. rewrite H8; cbn [bind]. rewrite H9; cbn [bind]. reflexivity.
  Qed.
  Lemma E0_ok x : opt (fun d q => do x <- get_double rnd d q; Ok (Some x)) d "ASCI.E0_WFN" None = Ok x <->
    chosen c "ASCI" "E0_WFN" (fun t y => exists x, a_double rnd t x /\ y = Some x) None x.
  Proof.
    destruct (named_ok "ASCI" "E0_WFN" "ASCI.E0_WFN" eq_refl) as (E1 & E2 & E3).
    rewrite <- (opt_ok d c Hd (fun t => do x <- stod rnd t; Ok (Some x)) (fun t y => exists x, a_double rnd t x /\ y = Some x) "ASCI" "E0_WFN" "ASCI.E0_WFN" None x); auto.
    - unfold opt, get_double. destruct (contains_data d (lit "ASCI.E0_WFN")) as [[]|]; cbn [bind]; try tauto. destruct (get_string d (lit "ASCI.E0_WFN")); cbn [bind]; tauto.
    - intros t y. rewrite bind_ok. split; intros (z & Z1 & Z2); exists z; split; auto; [injection Z2 as <-|rewrite Z2]; reflexivity.
  Qed.
  Lemma grow_wrap g : chosen c "ASCI" "GROW_FACTOR" an_int 8%Z g -> size_wrap g = (if g <? 0 then g + 2 ^ 64 else g)%Z.
  Proof.
    intros H. assert (R : (- 2 ^ 31 <= g < 2 ^ 31)%Z). { unfold chosen in H. destruct (c_value c (lit "ASCI") (lit "GROW_FACTOR")); [eapply stoi_range; eauto|subst g; split; reflexivity || discriminate]. }
    change (2 ^ 31)%Z with 2147483648%Z in R. unfold size_wrap. change (2 ^ 64)%Z with 18446744073709551616%Z. destruct (Z.ltb_spec g 0).
    - symmetry. apply (Z.mod_unique _ _ (-1)); lia.
    - apply Z.mod_small. lia.
  Qed.
  Lemma asci_ok a : driver_asci rnd d = Ok a <-> asci_as_asked rnd c a.
  Proof.
    unfold asci_as_asked. rewrite <- E0_ok. rewrite <- (opt_size "ASCI" "NTDETS_MAX" "ASCI.NTDETS_MAX" 100000%Z _ eq_refl),
      <- (opt_size "ASCI" "NTDETS_MIN" "ASCI.NTDETS_MIN" 100%Z _ eq_refl),
      <- (opt_size "ASCI" "NCDETS_MAX" "ASCI.NCDETS_MAX" 100%Z _ eq_refl),
      <- (opt_double "ASCI" "HAM_EL_TOL" "ASCI.HAM_EL_TOL" (Q2Qc (1 # 100000000)) _ eq_refl),
      <- (opt_double "ASCI" "RV_PRUNE_TOL" "ASCI.RV_PRUNE_TOL" (Q2Qc (1 # 100000000)) _ eq_refl),
      <- (opt_size "ASCI" "PAIR_MAX_LIM" "ASCI.PAIR_MAX_LIM" 500000000%Z _ eq_refl),
      <- (opt_size "ASCI" "MAX_REFINE_ITER" "ASCI.MAX_REFINE_ITER" 6%Z _ eq_refl),
      <- (opt_double "ASCI" "REFINE_ETOL" "ASCI.REFINE_ETOL" (Q2Qc (1 # 1000000)) _ eq_refl),
      <- (opt_bool "ASCI" "GROW_WITH_ROT" "ASCI.GROW_WITH_ROT" false _ eq_refl),
      <- (opt_size "ASCI" "ROT_SIZE_START" "ASCI.ROT_SIZE_START" 1000%Z _ eq_refl),
      <- (opt_text "ASCI" "WFN_FILE" "ASCI.WFN_FILE" [] _ eq_refl),
      <- (opt_text "ASCI" "WFN_OUT_FILE" "ASCI.WFN_OUT_FILE" [] _ eq_refl).
    assert (CL : (exists l, chosen c "ASCI" "CONSTRAINT_LVL" an_int 2%Z l) <-> exists l, opt get_int d "ASCI.CONSTRAINT_LVL" 2%Z = Ok l).
    { split; intros (l & Hl); exists l; apply (opt_int "ASCI" "CONSTRAINT_LVL" "ASCI.CONSTRAINT_LVL" 2%Z l eq_refl); auto. }
    assert (GF : forall k, (exists g, chosen c "ASCI" "GROW_FACTOR" an_int 8%Z g /\ k = (if g <? 0 then g + 2 ^ 64 else g)%Z) <-> exists g, opt get_int d "ASCI.GROW_FACTOR" 8%Z = Ok g /\ k = size_wrap g).
    { intros k. split; intros (g & Hg & E); exists g.
      - rewrite <- grow_wrap in E by auto. split; auto. apply (opt_int "ASCI" "GROW_FACTOR" "ASCI.GROW_FACTOR" 8%Z g eq_refl). auto.
      - apply (opt_int "ASCI" "GROW_FACTOR" "ASCI.GROW_FACTOR" 8%Z g eq_refl) in Hg. rewrite <- grow_wrap by auto. auto. }
    rewrite CL, GF. clear CL GF. unfold driver_asci. split.
    - intros H. apply bind_ok in H; destruct H as (x0 & X0 & H). apply bind_ok in H; destruct H as (x1 & X1 & H). apply bind_ok in H; destruct H as (x2 & X2 & H). apply bind_ok in H; destruct H as (x3 & X3 & H). apply bind_ok in H; destruct H as (x4 & X4 & H). apply bind_ok in H; destruct H as (x5 & X5 & H). apply bind_ok in H; destruct H as (x6 & X6 & H). apply bind_ok in H; destruct H as (x7 & X7 & H). apply bind_ok in H; destruct H as (x8 & X8 & H). apply bind_ok in H; destruct H as (x9 & X9 & H). apply bind_ok in H; destruct H as (x10 & X10 & H). apply bind_ok in H; destruct H as (x11 & X11 & H). apply bind_ok in H; destruct H as (x12 & X12 & H). apply bind_ok in H; destruct H as (x13 & X13 & H). apply bind_ok in H; destruct H as (x14 & X14 & H).
      injection H as <-. cbn [k_ntdets_max k_ntdets_min k_ncdets_max k_h_el_tol k_prune k_pair k_grow k_refine k_etol k_rot k_rot_start k_wfn_in k_wfn_out k_E0]. repeat (split; [eauto|]). auto.
    - destruct a as [a1 a2 a3 a4 a5 a6 a7 a8 a9 a10 a11 a12 a13 a14]. cbn [k_ntdets_max k_ntdets_min k_ncdets_max k_h_el_tol k_prune k_pair k_grow k_refine k_etol k_rot k_rot_start k_wfn_in k_wfn_out k_E0].
      intros (H1 & H2 & H3 & H4 & H5 & H6 & (g & H7 & ->) & H8 & H9 & H10 & H11 & (l & H12) & H13 & H14 & H15).
      rewrite H1; cbn [bind]. rewrite H2; cbn [bind]. rewrite H3; cbn [bind]. rewrite H4; cbn [bind]. rewrite H5; cbn [bind]. rewrite H6; cbn [bind]. rewrite H7; cbn [bind]. rewrite H8; cbn [bind]. rewrite H9; cbn [bind]. rewrite H10; cbn [bind]. rewrite H11; cbn [bind]. rewrite H12; cbn [bind]. rewrite H13; cbn [bind]. rewrite H14; cbn [bind]. rewrite H15; cbn [bind]. reflexivity.
  Qed.
  Lemma print_ok p : driver_print rnd d = Ok p <->
    chosen c "PRINT" "DETERMINANTS" a_switch false (k_dets p) /\ chosen c "PRINT" "DETERMINANTS_THRES" (a_double rnd) (Q2Qc (1 # 100)) (k_dets_thr p).
  Proof.
    rewrite <- (opt_bool "PRINT" "DETERMINANTS" "PRINT.DETERMINANTS" false _ eq_refl), <- (opt_double "PRINT" "DETERMINANTS_THRES" "PRINT.DETERMINANTS_THRES" (Q2Qc (1 # 100)) _ eq_refl).
    assert (B : forall s k key dflt, named s k key = true -> exists x, opt get_bool d key dflt = Ok x).
    { intros s k key dflt H. destruct (named_ok s k key H) as (E1 & E2 & E3). destruct (Hd _ _ E2 E3) as (G1 & G2). unfold opt, get_bool. rewrite E1, G1, G2. cbn [bind].
      destruct (c_value c (lit s) (lit k)); cbn [bind]; eauto. }
    destruct (B "PRINT" "DAVIDSON" "PRINT.DAVIDSON" false eq_refl)%string as (y0 & Y0).
    destruct (B "PRINT" "CI" "PRINT.CI" false eq_refl)%string as (y1 & Y1).
    destruct (B "PRINT" "MCSCF" "PRINT.MCSCF" true eq_refl)%string as (y2 & Y2).
    destruct (B "PRINT" "DIIS" "PRINT.DIIS" false eq_refl)%string as (y3 & Y3).
    destruct (B "PRINT" "ASCI_SEARCH" "PRINT.ASCI_SEARCH" false eq_refl)%string as (y4 & Y4).
    unfold driver_print. rewrite Y0; cbn [bind]. rewrite Y1; cbn [bind]. rewrite Y2; cbn [bind]. rewrite Y3; cbn [bind]. rewrite Y4; cbn [bind]. split.
    - intros H. apply bind_ok in H. destruct H as (a & A & H). apply bind_ok in H. destruct H as (b & C & H). injection H as <-. auto.
    - intros (A & C). rewrite A. cbn [bind]. rewrite C. destruct p. reflexivity.
  Qed.
  Lemma setup_ok norb o : (Z.of_nat norb < 2 ^ 31)%Z -> (driver_setup rnd d norb = Ok o <-> configured rnd c norb o).
  Proof.
    intros Hn. unfold configured. rewrite <- job_ok, <- exp_ok, <- mcscf_ok, <- asci_ok, <- print_ok.
    rewrite <- (opt_text "CI" "RDMFILE" "CI.RDMFILE" [] _ eq_refl), <- (opt_text "CI" "FCIDUMP_OUT" "CI.FCIDUMP_OUT" [] _ eq_refl), <- (opt_bool "MCSCF" "MP2_GUESS" "MCSCF.MP2_GUESS" false _ eq_refl).
    pose proof (space_ok norb (d_ninactive o) (d_nactive o) (d_nvirtual o) Hn) as SP.
    unfold driver_setup. split.
    - intros H. do 2 (apply bind_ok in H; let x := fresh "x" in let X := fresh "X" in destruct H as (x & X & H)).
      apply bind_ok in H. destruct H as (((ni & na) & nv) & S1 & H). pose proof (space_nonneg norb ni na nv Hn S1) as (P1 & P2 & P3).
      do 6 (apply bind_ok in H; let x := fresh "x" in let X := fresh "X" in destruct H as (x & X & H)). injection H as <-. cbn [d_job d_exp d_ninactive d_nactive d_nvirtual d_rdm d_fci_out d_mcscf d_asci d_mp2 d_print] in *.
      assert (S2 : driver_space d norb = Ok (Z.of_nat (Z.to_nat ni), Z.of_nat (Z.to_nat na), Z.of_nat (Z.to_nat nv))) by (rewrite !Z2Nat.id by auto; exact S1). apply SP in S2. tauto.
    - intros (H1 & H2 & H3 & H4 & H5 & H6 & H7 & H8 & H9 & H10 & H11 & H12 & H13).
      rewrite (proj2 SP) by auto. destruct o as [o1 o2 o3 o4 o5 o6 o7 o8 o9 o10 o11]. cbn [d_job d_exp d_ninactive d_nactive d_nvirtual d_rdm d_fci_out d_mcscf d_asci d_mp2 d_print] in *.
      rewrite H1, H2. cbn [bind]. rewrite H8, H9, H10, H11, H12, H13. cbn [bind]. rewrite !Nat2Z.id. reflexivity.
  Qed.
End KEYS2.
