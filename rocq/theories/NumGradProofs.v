(** Numerical orbital gradient and Hessian: what is written where. *)
From Coq Require Import QArith Qcanon Bool Lia.
From Verif Require Import Base Sums Ham HamProofs Asci Mem MemProofs Dense DenseSpec DenseProofs FockMatProofs RotProofs ExpandProofs SymProofs DenseGlue Mcscf DiisProofs McscfProofs NumGrad NumGradSpec.
Local Open Scope nat_scope.

Lemma packed_length n f : length (packed n f) = n * n.
Proof. unfold packed. rewrite map_length, seq_length. reflexivity. Qed.
Lemma packed_at n f i j : i < n -> j < n -> at2 (packed n f) n i j = f i j.
Proof.
  intros Hi Hj. assert (Hx : i + j * n < n * n) by nia. unfold at2, packed. rewrite nth_map_seq by exact Hx. destruct (cellmod n i j Hi) as [-> ->]. reflexivity.
Qed.
Lemma packed_eq n M f : 0 < n -> length M = n * n -> (forall i j, i < n -> j < n -> at2 M n i j = f i j) -> M = packed n f.
Proof.
  intros Hn L H. apply (nth_ext _ _ 0%Qc 0%Qc); [rewrite packed_length; exact L|]. intros x Hx. rewrite L in Hx.
  assert (Hm : x mod n < n) by (apply Nat.mod_upper_bound; lia). assert (Hd : x / n < n) by (apply Nat.div_lt_upper_bound; lia).
  assert (E : x = x mod n + x / n * n) by (pose proof (Nat.div_mod x n ltac:(lia)); lia).
  pose proof (H _ _ Hm Hd) as H1. unfold at2 in H1. rewrite <- E in H1. rewrite H1.
  pose proof (packed_at n f _ _ Hm Hd) as H2. unfold at2 in H2. rewrite <- E in H2. symmetry. exact H2.
Qed.
Lemma energy_in_ext no ni na T V D D2 U U' : ni + na <= no -> (forall i p, i < no -> p < no -> U i p = U' i p) ->
  energy_in no ni na T V D D2 U = energy_in no ni na T V D D2 U'.
Proof.
  intros Hn H. unfold energy_in. apply (total_energy_ext no); auto.
  - intros p q Hp Hq. unfold congruence2. apply Sigma_ext; intros i Hi. apply Sigma_ext; intros j Hj. rewrite !H by auto. reflexivity.
  - intros p q r s Hp Hq Hr Hs. apply congruence4_ext; auto.
Qed.

Section NUM.
  Variables (expm : nat -> list Qc -> res (list Qc)) (no ni na : nat) (T : list Qc) (LDT : nat) (V D : list Qc) (LDD1 : nat) (D2 : list Qc) (LDD2 : nat).
  Hypothesis H0 : 0 < no.
  Hypothesis H1 : 0 < LDD1.
  Hypothesis Hn : ni + na <= no.
  Hypothesis HT : fits2 T LDT no no.
  Hypothesis HV : fits4 V no no.
  Hypothesis HD : fits2 D LDD1 na na.
  Hypothesis HD2 : fits4 D2 LDD2 na.
  Hypothesis Hp : pair_symmetric no (at4 V no).
  Hypothesis Hs : symmetric2 na (at2 D LDD1).
  Notation E U := (energy_in no ni na (at2 T LDT) (at4 V no) (at2 D LDD1) (at4 D2 LDD2) U).
  Notation rot := (rotate_energy expm no ni na T LDT V no D LDD1 D2 LDD2).
  Definition ok_work (w : work) : Prop :=
    let '(U, Tt, Vt, F) := w in length U = no * no /\ length Tt = no * no /\ length Vt = no * no * (no * no) /\ length F = no * no.
  Lemma new_work_ok : ok_work (new_work no).
  Proof. unfold ok_work, new_work. rewrite !repeat_length. auto. Qed.

  Lemma rotate_ok alpha K f w X : ok_work w -> length K = no * no -> (forall p q, p < no -> q < no -> at2 K no p q = f p q) ->
    expm no (packed no (fun p q => - alpha * f p q)%Qc) = Ok X -> no * no <= length X ->
    exists w', rot alpha K w = Ok (E (at2 X no), w') /\ ok_work w'.
  Proof.
    destruct w as [[[U Tt] Vt] F]. intros (LU & LT & LV & LF) LK HK EX LX.
    destruct (orbital_rotation_ok expm no alpha K no U no) as (M & LM & RM & _ & EO); auto using fits2_packed.
    assert (EM : M = packed no (fun p q => - alpha * f p q)%Qc) by (apply packed_eq; auto; intros i j Hi Hj; rewrite RM, HK by auto; reflexivity).
    rewrite <- EM in EX. destruct (EO X EX LX) as (U' & EU & FU).
    assert (LU' : length U' = no * no) by (rewrite (proj1 FU); exact LU).
    assert (F4 : fits4 Vt no no) by (apply fits4_packed_ge; lia).
    destruct (rotated_energy_ok no ni na T LDT V no D LDD1 D2 LDD2 U' no Tt no Vt F no) as (Tt' & Vt' & F' & E1 & A1 & A2 & A3 & E2); auto using fits2_packed.
    unfold rotate_energy. rewrite EU. cbn [bind]. rewrite E1. cbn [bind].
    unfold orbital_rotated_energy in E2. rewrite E1 in E2. cbn [bind] in E2. rewrite E2. cbn [bind].
    exists (U', Tt', Vt', F'). split.
    - f_equal. f_equal. apply (energy_in_ext no ni na); auto. intros i p Hi Hp'. exact (filled2_at _ _ _ _ _ _ i p FU Hi Hp').
    - unfold ok_work. rewrite (proj1 A1), (proj1 A2), (proj1 A3). auto.
  Qed.
  Lemma rotation_array_ok a i : a < no -> i < no -> exists K, rotation_array no a i = Ok K /\ length K = no * no /\
    forall p q, p < no -> q < no -> at2 K no p q = (dk * pair_rotation a i p q)%Qc.
  Proof.
    intros Ha Hi. unfold rotation_array. assert (B1 : a + i * no < no * no) by nia. assert (B2 : i + a * no < no * no) by nia.
    rewrite put_ok by (rewrite repeat_length; exact B1). cbn [bind]. rewrite put_ok by (rewrite upd_length, repeat_length; exact B2).
    eexists. split; [reflexivity|]. split; [rewrite !upd_length, repeat_length; reflexivity|].
    intros p q Hp' Hq. unfold at2, pair_rotation. rewrite !upd_nth by (rewrite ?upd_length, repeat_length; assumption).
    destruct (Nat.eqb_spec (p + q * no) (i + a * no)) as [E1|E1].
    - destruct (pos2_inj no p q i a Hp' Hi E1) as [-> ->]. rewrite !Nat.eqb_refl. cbn [andb]. ring.
    - assert (X : (p =? i) && (q =? a) = false).
      { apply andb_false_iff. destruct (Nat.eqb_spec p i), (Nat.eqb_spec q a); auto. subst. contradiction. }
      rewrite X. destruct (Nat.eqb_spec (p + q * no) (a + i * no)) as [E2|E2].
      + destruct (pos2_inj no p q a i Hp' Ha E2) as [-> ->]. rewrite !Nat.eqb_refl. cbn [andb]. ring.
      + assert (Y : (p =? a) && (q =? i) = false).
        { apply andb_false_iff. destruct (Nat.eqb_spec p a), (Nat.eqb_spec q i); auto. subst. contradiction. }
        rewrite Y. rewrite nth_repeat. ring.
  Qed.
  Lemma fold_fill {Y} (loc : Y -> nat) (val : Y -> Qc) (body : list Qc * work -> Y -> res (list Qc * work)) (L : nat) :
    (forall x y : Y, {x = y} + {x <> y}) -> forall l,
    (forall x y, In x l -> In y l -> loc x = loc y -> x = y) -> (forall x, In x l -> loc x < L) ->
    (forall A w x, In x l -> ok_work w -> length A = L -> exists w', body (A, w) x = Ok (upd A (loc x) (val x), w') /\ ok_work w') ->
    forall A w, length A = L -> ok_work w ->
    exists A' w', foldM l body (A, w) = Ok (A', w') /\ length A' = L /\ (forall x, In x l -> nth (loc x) A' 0%Qc = val x) /\
      forall p, (forall x, In x l -> p <> loc x) -> nth p A' 0%Qc = nth p A 0%Qc.
  Proof.
    intros dec. induction l as [|x l IH]; intros Inj Bd St A w LA HW.
    - exists A, w. split; [reflexivity|]. split; [exact LA|]. split; [intros x []|auto].
    - destruct (St A w x (or_introl eq_refl) HW LA) as (w1 & E1 & W1). cbn [foldM]. rewrite E1. cbn [bind].
      destruct (IH (fun a b Ha Hb => Inj a b (or_intror Ha) (or_intror Hb)) (fun a Ha => Bd a (or_intror Ha)) (fun A w a Ha => St A w a (or_intror Ha)) (upd A (loc x) (val x)) w1) as (A' & w' & E2 & L2 & V2 & K2).
      { rewrite upd_length. exact LA. } { exact W1. }
      exists A', w'. split; [exact E2|]. split; [exact L2|]. assert (Bx : loc x < length A) by (rewrite LA; apply Bd; left; reflexivity). split.
      + intros y [<-|Hy]; [|auto]. destruct (in_dec dec x l) as [I|I]; [auto|].
        rewrite K2; [rewrite upd_nth, Nat.eqb_refl by exact Bx; reflexivity|]. intros y Hy Ey. apply I. rewrite (Inj x y (or_introl eq_refl) (or_intror Hy) Ey). exact Hy.
      + intros p Hp'. rewrite K2 by (intros y Hy; apply Hp'; right; exact Hy). rewrite upd_nth by exact Bx. destruct (Nat.eqb_spec p (loc x)); [exfalso; apply (Hp' x); [left; reflexivity|assumption]|reflexivity].
  Qed.

  (* ** gradient *)
  Lemma grad_loop i a : In (i, a) (flat_map (fun i => map (pair i) (seq (i + 1) (no - (i + 1)))) (seq 0 no)) <-> i < a < no.
  Proof.
    rewrite in_flat_map. split.
    - intros (i' & Hi & H). apply in_seq in Hi. apply in_map_iff in H. destruct H as (a' & H & Ha). apply in_seq in Ha. injection H as <- <-. lia.
    - intros H. exists i. split; [apply in_seq; lia|]. apply in_map. apply in_seq. lia.
  Qed.
  Lemma fdiv_dk x c : (c <> 0)%nat -> fdiv x (inject c * dk) = Ok (x / (inject c * dk))%Qc.
  Proof.
    intros Hc. unfold fdiv. destruct (Qc_eq_dec _ 0) as [Z|]; [exfalso|reflexivity]. apply Qcmult_integral in Z. destruct Z as [Z|Z].
    - apply (f_equal this) in Z. unfold inject in Z. cbn [this Q2Qc] in Z. assert (K : (inject_Z (Z.of_nat c) == 0)%Q) by (rewrite <- (Qred_correct (inject_Z _)), Z; reflexivity). unfold Qeq in K. cbn in K. lia.
    - discriminate Z.
  Qed.
  Lemma rotate_at (a i : nat) (X : Qc -> list Qc) (K : list Qc) (w : work) (c : Qc) :
    (forall t, expm no (packed no (fun p q => - t * pair_rotation a i p q)%Qc) = Ok (X t) /\ no * no <= length (X t)) ->
    ok_work w -> length K = no * no -> (forall p q, p < no -> q < no -> at2 K no p q = (dk * pair_rotation a i p q)%Qc) ->
    exists w', rot c K w = Ok (E (at2 (X (c * dk)%Qc) no), w') /\ ok_work w'.
  Proof.
    intros HX HW LK HK. destruct (HX (c * dk)%Qc) as [EX LX].
    apply (rotate_ok c K _ w (X (c * dk)%Qc) HW LK HK); [|exact LX]. rewrite <- EX. f_equal. unfold packed. apply map_ext. intros x. ring.
  Qed.
  Lemma num_gradient_ok (X : nat -> nat -> Qc -> list Qc) OG LDOG : fits2 OG no no no ->
    (forall a i t, i < a < no -> expm no (packed no (fun p q => - t * pair_rotation a i p q)%Qc) = Ok (X a i t) /\ no * no <= length (X a i t)) ->
    exists OG', numerical_orbital_gradient expm no ni na T LDT V no D LDD1 D2 LDD2 OG LDOG = Ok OG' /\ length OG' = length OG /\
      (forall a i, i < a < no -> at2 OG' no a i = five_point dk (fun t => E (at2 (X a i t) no))) /\
      forall p, (forall a i, i < a < no -> p <> a + i * no) -> nth p OG' 0%Qc = nth p OG 0%Qc.
  Proof.
    intros [_ HOG] HX. unfold numerical_orbital_gradient.
    match goal with |- context [foldM _ ?f _] => set (body := f) end.
    destruct (fold_fill (fun ia : nat * nat => snd ia + fst ia * no) (fun ia => five_point dk (fun t => E (at2 (X (snd ia) (fst ia) t) no))) body (length OG)
      ltac:(decide equality; apply Nat.eq_dec) (flat_map (fun i => map (pair i) (seq (i + 1) (no - (i + 1)))) (seq 0 no))) with (A := OG) (w := new_work no) as (OG' & w' & EF & LG & VG & KG).
    - intros [i a] [i' a'] H2 H3 H4. apply grad_loop in H2, H3. cbn [fst snd] in H4. destruct (pos2_inj no a i a' i' ltac:(lia) ltac:(lia) H4) as [-> ->]. reflexivity.
    - intros [i a] H2. apply grad_loop in H2. cbn [fst snd]. apply HOG; lia.
    - intros A w [i a] H2 HW LA. apply grad_loop in H2. cbn [fst snd]. unfold body. clear body. cbv beta iota.
      destruct (rotation_array_ok a i) as (K & EK & LK & HK); [lia|lia|]. rewrite EK. cbn [bind].
      pose proof (fun t => HX a i t H2) as HX'.
      destruct (rotate_at a i (X a i) K w (inject 2) HX' HW LK HK) as (w1 & E1 & W1). rewrite E1. cbn [bind].
      destruct (rotate_at a i (X a i) K w1 1%Qc HX' W1 LK HK) as (w2 & E2 & W2). rewrite E2. cbn [bind].
      destruct (rotate_at a i (X a i) K w2 (- (1))%Qc HX' W2 LK HK) as (w3 & E3 & W3). rewrite E3. cbn [bind].
      destruct (rotate_at a i (X a i) K w3 (- inject 2)%Qc HX' W3 LK HK) as (w4 & E4 & W4). rewrite E4. cbn [bind].
      rewrite fdiv_dk by lia. cbn [bind]. rewrite put_ok by (rewrite LA; apply HOG; lia). cbn [bind]. exists w4. split; [|exact W4].
      unfold five_point. replace (1 * dk)%Qc with dk by ring. replace (- (1) * dk)%Qc with (- dk)%Qc by ring. replace (- inject 2 * dk)%Qc with (- (inject 2 * dk))%Qc by ring. reflexivity.
    - reflexivity.
    - apply new_work_ok.
    - rewrite EF. cbn [bind fst]. exists OG'. split; [reflexivity|]. split; [exact LG|]. split.
      + intros a i H2. apply (VG (i, a)). apply grad_loop. exact H2.
      + intros p H2. apply KG. intros [i a] H3. apply grad_loop in H3. cbn [fst snd]. apply H2. exact H3.
  Qed.

  (* ** Hessian *)
  Lemma hess_loop i a j b : In ((i, a), (j, b)) (hessian_loop no) <-> i < a < no /\ j < no /\ i < b < no.
  Proof.
    unfold hessian_loop. rewrite in_flat_map. split.
    - intros (i' & Hi & H). apply in_seq in Hi. apply in_flat_map in H. destruct H as (a' & Ha & H). apply in_seq in Ha. apply in_flat_map in H. destruct H as (j' & Hj & H). apply in_seq in Hj.
      apply in_map_iff in H. destruct H as (b' & H & Hb). apply in_seq in Hb. injection H as <- <- <- <-. lia.
    - intros (A & B & C). exists i. split; [apply in_seq; lia|]. apply in_flat_map. exists a. split; [apply in_seq; lia|]. apply in_flat_map. exists j. split; [apply in_seq; lia|].
      apply in_map_iff. exists b. split; [reflexivity|]. apply in_seq. lia.
  Qed.
  Lemma rotate_at2 (a i b j : nat) (X : Qc -> Qc -> list Qc) (Kx Ky : list Qc) (w : work) (c d : Qc) :
    (forall x y, expm no (packed no (fun p q => - (x * pair_rotation a i p q + y * pair_rotation b j p q))%Qc) = Ok (X x y) /\ no * no <= length (X x y)) ->
    ok_work w -> length Kx = no * no -> length Ky = no * no ->
    (forall p q, p < no -> q < no -> at2 Kx no p q = (dk * pair_rotation a i p q)%Qc) ->
    (forall p q, p < no -> q < no -> at2 Ky no p q = (dk * pair_rotation b j p q)%Qc) ->
    exists w', rot 1%Qc (map (fun k => c * fst k + d * snd k)%Qc (combine Kx Ky)) w = Ok (E (at2 (X (c * dk)%Qc (d * dk)%Qc) no), w') /\ ok_work w'.
  Proof.
    intros HX HW LX LY HKx HKy. destruct (HX (c * dk)%Qc (d * dk)%Qc) as [EX LL].
    apply (rotate_ok 1%Qc _ (fun p q => c * (dk * pair_rotation a i p q) + d * (dk * pair_rotation b j p q))%Qc w (X (c * dk) (d * dk))%Qc HW).
    - rewrite map_length, combine_length. lia.
    - intros p q Hp' Hq. rewrite <- HKx, <- HKy by auto. unfold at2. set (x := p + q * no). assert (Hx : x < no * no) by (unfold x; nia).
      rewrite (nth_indep _ _ ((fun k => c * fst k + d * snd k)%Qc (0%Qc, 0%Qc))) by (rewrite map_length, combine_length; lia).
      rewrite (map_nth (fun k => c * fst k + d * snd k)%Qc), combine_nth by lia. reflexivity.
    - rewrite <- EX. f_equal. unfold packed. apply map_ext. intros x. ring.
    - exact LL.
  Qed.
  Lemma steps_ok (a i b j : nat) (X : Qc -> Qc -> list Qc) (Kx Ky : list Qc) :
    (forall x y, expm no (packed no (fun p q => - (x * pair_rotation a i p q + y * pair_rotation b j p q))%Qc) = Ok (X x y) /\ no * no <= length (X x y)) ->
    length Kx = no * no -> length Ky = no * no ->
    (forall p q, p < no -> q < no -> at2 Kx no p q = (dk * pair_rotation a i p q)%Qc) ->
    (forall p q, p < no -> q < no -> at2 Ky no p q = (dk * pair_rotation b j p q)%Qc) ->
    forall l es w, ok_work w -> exists w', foldM l (fun (s : list Qc * work) xy =>
              let '(es, w) := s in
              let K := map (fun k => fst xy * fst k + snd xy * snd k)%Qc (combine Kx Ky) in
              do e <- rot 1%Qc K w;
              let '(e, w) := e in
              Ok (es ++ [e], w)) (es, w) = Ok (es ++ map (fun xy => E (at2 (X (fst xy * dk)%Qc (snd xy * dk)%Qc) no)) l, w') /\ ok_work w'.
  Proof.
    intros HX LX LY HKx HKy l. match goal with |- forall es w, _ -> exists w', foldM _ ?f _ = _ /\ _ => set (body := f) end.
    assert (St : forall es w c d, ok_work w -> exists w', body (es, w) (c, d) = Ok (es ++ [E (at2 (X (c * dk)%Qc (d * dk)%Qc) no)], w') /\ ok_work w').
    { intros es w c d HW. destruct (rotate_at2 a i b j X Kx Ky w c d HX HW LX LY HKx HKy) as (w1 & E1 & W1). exists w1. split; [|exact W1].
      unfold body. cbv beta iota. cbn [fst snd]. rewrite E1. reflexivity. }
    clearbody body. induction l as [|[c d] l IH]; intros es w HW.
    - exists w. cbn [foldM map]. rewrite app_nil_r. auto.
    - cbn [foldM]. destruct (St es w c d HW) as (w1 & E1 & W1). rewrite E1. cbn [bind].
      destruct (IH (es ++ [E (at2 (X (c * dk)%Qc (d * dk)%Qc) no)]) w1 W1) as (w' & E2 & W2). exists w'. split; [|exact W2]. rewrite E2. cbn [map fst snd]. rewrite <- app_assoc. reflexivity.
  Qed.
  Lemma fdiv_dk2 x : fdiv x (inject 144 * dk * dk) = Ok (x / (inject 144 * dk * dk))%Qc.
  Proof. unfold fdiv. destruct (Qc_eq_dec _ 0) as [Z|]; [discriminate Z|reflexivity]. Qed.
  Lemma stencil_sum (f : Qc -> Qc -> Qc) : exists tmp, sumM 0%Qc (loop2 4 4) (fun pq =>
              do cp <- at_ stencil_c (fst pq);
              do cq <- at_ stencil_c (snd pq);
              do row <- at_ stencil_e (fst pq);
              do pos <- at_ row (snd pq);
              do e <- at_ (map (fun xy => f (fst xy * dk)%Qc (snd xy * dk)%Qc) steps) pos;
              Ok (cp * cq * e)%Qc) = Ok tmp /\ (tmp / (inject 144 * dk * dk))%Qc = mixed_five_point dk f.
  Proof.
    unfold mixed_five_point, five_point, steps. cbn [map fst snd].
    replace (1 * dk)%Qc with dk by ring. replace (- (1) * dk)%Qc with (- dk)%Qc by ring. replace (- inject 2 * dk)%Qc with (- (inject 2 * dk))%Qc by ring.
    set (h2 := (inject 2 * dk)%Qc). set (g2 := (- h2)%Qc). set (g1 := (- dk)%Qc).
    replace (inject 144) with (inject 12 * inject 12)%Qc by (apply Qc_is_canon; reflexivity).
    assert (N12 : inject 12 <> 0%Qc) by discriminate. assert (Nd : dk <> 0%Qc) by discriminate.
    assert (C0 : forall X : Qc, (X / (inject 12 * inject 12 * dk * dk) = X / (inject 12 * dk) / (inject 12 * dk))%Qc) by (intros; field; auto).
    clearbody h2 g2 g1. unfold stencil_c. set (c8 := inject 8). set (c12 := (inject 12 * dk)%Qc) in *. clearbody c8.
    assert (N : c12 <> 0%Qc) by (unfold c12; intros Z; apply Qcmult_integral in Z; destruct Z; contradiction).
    clearbody c12.
    eexists. split; [cbn -[Qcplus Qcmult Qcopp]; reflexivity|]. rewrite C0. field. exact N.
  Qed.
  Lemma num_hessian_ok (X : nat -> nat -> nat -> nat -> Qc -> Qc -> list Qc) OH LDOH : fits4 OH LDOH no ->
    (forall a i b j x y, i < a < no -> i < b < no -> j < no ->
       expm no (packed no (fun p q => - (x * pair_rotation a i p q + y * pair_rotation b j p q))%Qc) = Ok (X a i b j x y) /\ no * no <= length (X a i b j x y)) ->
    exists OH', numerical_orbital_hessian expm no ni na T LDT V no D LDD1 D2 LDD2 OH LDOH = Ok OH' /\ length OH' = length OH /\
      (forall a i b j, i < a < no -> i < b < no -> j < no -> at4 OH' LDOH a i b j = mixed_five_point dk (fun x y => E (at2 (X a i b j x y) no))) /\
      forall p, (forall a i b j, i < a < no -> i < b < no -> j < no -> p <> a + i * LDOH + b * LDOH * LDOH + j * LDOH * LDOH * LDOH) -> nth p OH' 0%Qc = nth p OH 0%Qc.
  Proof.
    intros [HL HOH] HX. unfold numerical_orbital_hessian.
    match goal with |- context [foldM _ ?f _] => set (body := f) end.
    set (loc := fun x : nat * nat * (nat * nat) => let '((i, a), (j, b)) := x in a + i * LDOH + b * LDOH * LDOH + j * LDOH * LDOH * LDOH).
    set (val := fun x : nat * nat * (nat * nat) => let '((i, a), (j, b)) := x in mixed_five_point dk (fun x y => E (at2 (X a i b j x y) no))).
    destruct (fold_fill loc val body (length OH) ltac:(repeat decide equality) (hessian_loop no)) with (A := OH) (w := new_work no) as (OH' & w' & EF & LG & VG & KG).
    - intros [[i a] [j b]] [[i' a'] [j' b']] H2 H3 H4. apply hess_loop in H2, H3. unfold loc in H4.
      destruct (pos4_inj' LDOH a i b j a' i' b' j') as (-> & -> & -> & ->); try lia. reflexivity.
    - intros [[i a] [j b]] H2. apply hess_loop in H2. unfold loc. apply HOH; lia.
    - intros A w [[i a] [j b]] H2 HW LA. apply hess_loop in H2. destruct H2 as (B1 & B2 & B3). unfold loc, val, body. clear body. cbv beta iota.
      destruct (rotation_array_ok a i) as (Kx & EKx & LKx & HKx); [lia|lia|]. rewrite EKx. cbn [bind].
      destruct (rotation_array_ok b j) as (Ky & EKy & LKy & HKy); [lia|lia|]. rewrite EKy. cbn [bind].
      destruct (steps_ok a i b j (X a i b j) Kx Ky (fun x y => HX a i b j x y B1 B3 B2) LKx LKy HKx HKy steps [] w HW) as (w1 & E1 & W1).
      match type of E1 with ?L = _ => match goal with |- context [foldM steps ?g ?s] => change (foldM steps g s) with L end end. rewrite E1. cbn [bind app].
      destruct (stencil_sum (fun x y => E (at2 (X a i b j x y) no))) as (tmp & E2 & E3). cbv beta in E2. rewrite E2. cbn [bind].
      rewrite fdiv_dk2. cbn [bind]. rewrite put_ok by (rewrite LA; apply HOH; lia). cbn [bind]. exists w1. split; [|exact W1]. rewrite E3. reflexivity.
    - reflexivity.
    - apply new_work_ok.
    - rewrite EF. cbn [bind fst]. exists OH'. split; [reflexivity|]. split; [exact LG|]. split.
      + intros a i b j H2 H3 H4. apply (VG ((i, a), (j, b))). apply hess_loop. auto.
      + intros p H2. apply KG. intros [[i a] [j b]] H3. apply hess_loop in H3. apply H2; tauto.
  Qed.
End NUM.
