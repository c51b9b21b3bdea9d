(** Orbital energies, MP2 amplitudes and density matrix (C48). *)
From Coq Require Import QArith Qcanon Bool Lia.
From Verif Require Import Base Sums Ham HamProofs Asci Mem MemProofs SparseProofs1 RdmIOProofs Dense DenseSpec DenseProofs FockMatProofs LinRespProofs RotProofs.
Local Open Scope nat_scope.

Lemma fill1 n (h : nat -> Qc) (f : list Qc -> nat -> res (list Qc)) a : n <= length a ->
  (forall s p, p < n -> f s p = put s p (h p)) ->
  exists a', foldM (seq 0 n) f a = Ok a' /\ length a' = length a /\ (forall p, p < n -> nth p a' 0%Qc = h p) /\
    forall p, n <= p -> nth p a' 0%Qc = nth p a 0%Qc.
Proof.
  intros Hl Hf. destruct (scatter (seq 0 n) (fun p => [p]) h f a) as (a' & E & L & A & B).
  - intros e x He [<-|[]]. apply in_seq in He. lia.
  - intros s' e He _. apply in_seq in He. rewrite Hf by lia. cbn. destruct (put s' e (h e)); reflexivity.
  - exists a'. repeat split; auto.
    + intros p Hp. apply (A p p); [apply in_seq; lia|left; auto].
    + intros p Hp. apply B. intros e He [->|[]]. apply in_seq in He. lia.
Qed.
Lemma canonical_ok no ni T LDT V LDV eps : ni <= no -> fits2 T LDT no no -> fits4 V LDV no -> no <= length eps ->
  exists e, canonical_orbital_energies no ni T LDT V LDV eps = Ok e /\ length e = length eps /\
    (forall p, p < no -> nth p e 0%Qc = orbital_energy ni (at2 T LDT) (at4 V LDV) p) /\ (forall p, no <= p -> nth p e 0%Qc = nth p eps 0%Qc).
Proof.
  intros Hn HT HV He. unfold canonical_orbital_energies. apply fill1; auto. intros s p Hp.
  rewrite (sumM_Sigma0 ni _ (fun i => two * at4 V LDV p p i i - at4 V LDV p i i p)%Qc).
  - cbn [bind]. rewrite (read2' T LDT no no p p) by (auto; lia). reflexivity.
  - intros i Hi. rewrite (read4' V LDV no p p i i) by (auto; lia). cbn [bind].
    rewrite (read4' V LDV no p i i p) by (auto; lia). cbn [bind]. rewrite twice_two. reflexivity.
Qed.

(** element (i, j, a, b) of the amplitudes *)
Definition at_t2 (no nv : nat) (t : list Qc) (i j a b : nat) : Qc := nth (i + j * no + a * (no * no) + b * (no * no * nv)) t 0%Qc.
Lemma pos_t2_inj no nv i j a b i' j' a' b' : i < no -> j < no -> a < nv -> i' < no -> j' < no -> a' < nv ->
  i + j * no + a * (no * no) + b * (no * no * nv) = i' + j' * no + a' * (no * no) + b' * (no * no * nv) -> i = i' /\ j = j' /\ a = a' /\ b = b'.
Proof.
  intros Hi Hj Ha Hi' Hj' Ha' E.
  assert (E1 : i + (j + (a + b * nv) * no) * no = i' + (j' + (a' + b' * nv) * no) * no) by nia.
  apply pos2_inj in E1; auto. destruct E1 as [-> E2]. apply pos2_inj in E2; auto. destruct E2 as [-> E3]. apply pos2_inj in E3; auto; tauto.
Qed.
Lemma pos_t2_bound no nv i j a b : i < no -> j < no -> a < nv -> b < nv -> i + j * no + a * (no * no) + b * (no * no * nv) < no * no * nv * nv.
Proof.
  intros Hi Hj Ha Hb.
  assert (i + j * no < no * no) by nia. set (o2 := no * no) in *. assert (i + j * no + a * o2 < o2 * nv) by nia. nia.
Qed.
Lemma mp2_t2_ok no nv V LDV eps T2 : fits4 V LDV (no + nv) -> no + nv <= length eps -> no * no * nv * nv <= length T2 ->
  (forall i j a b, i < no -> j < no -> a < nv -> b < nv -> denominator no (fun p => nth p eps 0%Qc) i j a b <> 0%Qc) ->
  exists t, mp2_t2 no nv V LDV eps T2 = Ok t /\ length t = length T2 /\
    (forall i j a b, i < no -> j < no -> a < nv -> b < nv -> at_t2 no nv t i j a b = amplitude no (at4 V LDV) (fun p => nth p eps 0%Qc) i j a b) /\
    (forall x, no * no * nv * nv <= x -> nth x t 0%Qc = nth x T2 0%Qc).
Proof.
  intros HV He Ht Hd. unfold mp2_t2. cbv zeta.
  destruct (fill4 no no nv nv (fun i j a b => i + j * no + a * (no * no) + b * (no * no * nv))
    (amplitude no (at4 V LDV) (fun p => nth p eps 0%Qc))
    (fun T2 ijab => let '((i, j), (a, b)) := ijab in
      do v <- at_ V (i + (a + no) * LDV + j * (LDV * LDV) + (b + no) * (LDV * LDV * LDV));
      do ei <- at_ eps i; do ej <- at_ eps j; do ea <- at_ eps (a + no); do eb <- at_ eps (b + no);
      do t <- div_ v (ei + ej - ea - eb)%Qc;
      put T2 (i + j * no + a * (no * no) + b * (no * no * nv)) t) T2) as (t & E & L & A & B).
  - intros x y z w x' y' z' w' Hx Hy Hz Hw Hx' Hy' Hz' Hw' E. apply pos_t2_inj in E; auto.
  - intros x y z w Hx Hy Hz Hw. pose proof (pos_t2_bound no nv x y z w Hx Hy Hz Hw). lia.
  - intros s i j a b Hi Hj Ha Hb. rewrite (read4 V LDV (no + nv)) by (auto; lia). cbn [bind].
    rewrite !(at_ok _ _ 0%Qc) by lia. cbn [bind]. unfold div_. destruct (Qc_eq_dec _ _) as [e|e].
    + exfalso. apply (Hd i j a b); auto.
    + reflexivity.
  - exists t. split; [exact E|]. split; auto. split; [exact A|]. intros x Hx. apply B. intros i j a b Hi Hj Ha Hb ->.
    pose proof (pos_t2_bound no nv i j a b Hi Hj Ha Hb). lia.
Qed.
Lemma mp2_t2_zero no nv V LDV eps T2 i j a b : fits4 V LDV (no + nv) -> no + nv <= length eps -> no * no * nv * nv <= length T2 ->
  i < no -> j < no -> a < nv -> b < nv -> denominator no (fun p => nth p eps 0%Qc) i j a b = 0%Qc -> mp2_t2 no nv V LDV eps T2 = Err NonFinite.
Proof.
  intros HV He Ht Hi Hj Ha Hb Hd. unfold mp2_t2. cbv zeta.
  match goal with |- foldM _ ?f _ = _ => set (F := f) end.
  assert (G : forall l s, length s = length T2 -> (forall q, In q l -> In q (loop4 no no nv nv)) -> In ((i, j), (a, b)) l -> foldM l F s = Err NonFinite).
  { induction l as [|[[i' j'] [a' b']] l IH]; intros s Hs Hl Hin; [destruct Hin|].
    assert (R : In ((i', j'), (a', b')) (loop4 no no nv nv)) by (apply Hl; left; auto). apply in_loop4 in R. destruct R as (Ri & Rj & Ra & Rb).
    cbn [foldM].
    assert (E : F s ((i', j'), (a', b')) = Err NonFinite \/ ((i', j'), (a', b')) <> ((i, j), (a, b)) /\ exists s', F s ((i', j'), (a', b')) = Ok s' /\ length s' = length T2).
    { unfold F. rewrite (read4 V LDV (no + nv)) by (auto; lia). cbn [bind]. rewrite !(at_ok _ _ 0%Qc) by lia. cbn [bind].
      unfold div_. destruct (Qc_eq_dec _ _) as [e|e]; [left; reflexivity|right]. split.
      - intros Q. inversion Q; subst. apply e. exact Hd.
      - cbn [bind]. pose proof (pos_t2_bound no nv i' j' a' b' Ri Rj Ra Rb). rewrite put_ok by lia. eexists. split; [reflexivity|]. rewrite upd_length. auto. }
    destruct E as [E|(Ne & s' & E & L)].
    - rewrite E. reflexivity.
    - rewrite E. cbn [bind]. apply IH; auto.
      + intros q Hq. apply Hl. right; auto.
      + destruct Hin as [Hin|Hin]; auto. exfalso. auto. }
  apply (G (loop4 no no nv nv) T2); auto. apply in_loop4. auto.
Qed.

Lemma put_twice (s : list Qc) x v c : (do s1 <- put s x v; (do d <- at_ s1 x; put s1 x (d + c)%Qc)) = put s x (v + c)%Qc.
Proof.
  destruct (Nat.lt_ge_cases x (length s)) as [H|H].
  - rewrite !put_ok by auto. cbn [bind]. rewrite (at_ok _ _ 0%Qc) by (rewrite upd_length; auto). cbn [bind].
    rewrite put_ok by (rewrite upd_length; auto). rewrite upd_nth, Nat.eqb_refl by auto. f_equal.
    apply (nth_ext' _ _ 0%Qc); [rewrite !upd_length; auto|]. intros i Hi. rewrite !upd_nth by (rewrite ?upd_length; auto). destruct (i =? x); auto.
  - assert (E : forall y, put s x y = Err UB). { clear -H. revert x H. induction s; intros [|x] H y; cbn in *; auto; try lia. rewrite IHs by lia. reflexivity. }
    rewrite !E. reflexivity.
Qed.

(** which elements of the density matrix are assigned *)
Lemma mp2_1rdm_ok norb no nv T LDT V LDV P LDD : norb = no + nv -> fits2 T LDT norb norb -> fits4 V LDV norb -> fits2 P LDD norb norb ->
  let eps := orbital_energy no (at2 T LDT) (at4 V LDV) in let t := amplitude no (at4 V LDV) eps in
  (forall i j a b, i < no -> j < no -> a < nv -> b < nv -> denominator no eps i j a b <> 0%Qc) ->
  exists E P', mp2_1rdm norb no nv T LDT V LDV P LDD = Ok (E, P') /\
    (LDV = norb -> E = correlation_energy no nv (at4 V LDV) t) /\ length P' = length P /\
    (forall i j, i < no -> j < no -> at2 P' LDD i j = occupied_block no nv t i j) /\
    (forall a b, a < nv -> b < nv -> at2 P' LDD (a + no) (b + no) = virtual_block no nv t a b) /\
    (forall x, (forall i j, i < no -> j < no -> x <> i + j * LDD) -> (forall a b, a < nv -> b < nv -> x <> a + no + (b + no) * LDD) ->
       nth x P' 0%Qc = nth x P 0%Qc).
Proof.
  intros En HT HV HP eps t Hd. unfold mp2_1rdm. cbv zeta.
  destruct (canonical_ok norb no T LDT V LDV (repeat 0%Qc norb)) as (e & -> & Le & Ee & _); auto; [lia|rewrite repeat_length; auto|]. cbn [bind].
  rewrite repeat_length in Le.
  assert (De : forall i j a b, i < no -> j < no -> a < nv -> b < nv -> denominator no (fun p => nth p e 0%Qc) i j a b = denominator no eps i j a b).
  { intros i j a b Hi Hj Ha Hb. unfold denominator. rewrite !Ee by lia. reflexivity. }
  destruct (mp2_t2_ok no nv V LDV e (repeat 0%Qc (no * no * nv * nv))) as (t2 & -> & Lt & Et & _).
  { subst norb; auto. } { lia. } { rewrite repeat_length. auto. } { intros i j a b Hi Hj Ha Hb. rewrite De by auto. auto. }
  cbn [bind]. rewrite repeat_length in Lt.
  assert (Rt : forall i j a b, i < no -> j < no -> a < nv -> b < nv -> at_ t2 (i + j * no + a * (no * no) + b * (no * no * nv)) = Ok (t i j a b)).
  { intros i j a b Hi Hj Ha Hb. rewrite (at_ok _ _ 0%Qc) by (rewrite Lt; apply pos_t2_bound; auto). f_equal.
    rewrite (Et i j a b Hi Hj Ha Hb : nth _ _ _ = _). unfold t, amplitude. rewrite De by auto. reflexivity. }
  (* the energy *)
  set (rdV := fun p q r s => nth (p + q * norb + r * (LDV * LDV) + s * (LDV * LDV * LDV)) V 0%Qc).
  rewrite (sumM_loop4 no no nv nv _ (fun i j a b => t i j a b * (two * rdV (a + no)%nat i (b + no)%nat j - rdV (a + no)%nat j (b + no)%nat i))%Qc).
  2:{ intros i j a b Hi Hj Ha Hb. cbv zeta. destruct HV as [HL HB].
      assert (BB : forall p q r s, p < norb -> q < norb -> r < norb -> s < norb -> p + q * norb + r * (LDV * LDV) + s * (LDV * LDV * LDV) < length V).
      { intros p q r s Hp Hq Hr Hs. pose proof (HB p q r s Hp Hq Hr Hs). assert (q * norb <= q * LDV) by nia. nia. }
      rewrite (at_ok V _ 0%Qc) by (apply BB; lia). cbn [bind]. rewrite (at_ok V _ 0%Qc) by (apply BB; lia). cbn [bind].
      rewrite Rt by auto. cbn [bind]. rewrite twice_two. reflexivity. }
  cbn [bind].
  (* occupied block *)
  set (oo := occupied_block no nv t).
  match goal with |- context [foldM (loop2 no no) ?f P] => destruct (fill2 no no (fun i j => i + j * LDD) oo f P) as (P1 & E1 & L1 & A1 & B1) end.
  { destruct HP as [HL _]. intros i j i' j' Hi Hj Hi' Hj' E. apply (pos2_inj LDD) in E; auto; lia. }
  { intros i j Hi Hj. apply HP; lia. }
  { intros s i j Hi Hj.
    rewrite (sumM_loop3 no nv nv _ (fun k a b => t i k a b * (two * t j k a b - t j k b a))%Qc).
    2:{ intros k a b Hk Ha Hb. rewrite !Rt by auto. cbn [bind]. rewrite twice_two. reflexivity. }
    cbn [bind]. rewrite twice_two. unfold oo, occupied_block.
    set (sm := Sigma no _). destruct (i =? j).
    - rewrite put_twice. f_equal. unfold twice, two. ring.
    - replace (0 - two * sm)%Qc with (- (two * (0 + sm)))%Qc by ring. destruct (put s (i + j * LDD) (- (two * (0 + sm)))%Qc); reflexivity. }
  rewrite E1. cbn [bind].
  match goal with |- context [foldM (loop2 nv nv) ?f P1] => destruct (fill2 nv nv (fun a b => a + no + (b + no) * LDD) (virtual_block no nv t) f P1) as (P2 & E2 & L2 & A2 & B2) end.
  { destruct HP as [HL _]. intros i j i' j' Hi Hj Hi' Hj' E. apply (pos2_inj LDD) in E; lia. }
  { intros i j Hi Hj. rewrite L1. apply HP; lia. }
  { intros s a b Ha Hb.
    rewrite (sumM_loop3 no no nv _ (fun i j c => t i j c a * (two * t i j c b - t i j b c))%Qc).
    2:{ intros i j c Hi Hj Hc. rewrite !Rt by auto. cbn [bind]. rewrite twice_two. reflexivity. }
    cbn [bind]. rewrite twice_two. unfold virtual_block. f_equal. ring. }
  rewrite E2. cbn [bind]. exists (0 + Sigma no (fun i => Sigma no (fun j => Sigma nv (fun a => Sigma nv (fun b =>
    t i j a b * (two * rdV (a + no)%nat i (b + no)%nat j - rdV (a + no)%nat j (b + no)%nat i))))))%Qc, P2. split; [reflexivity|].
  split; [|split; [congruence|]].
  - intros EL. unfold correlation_energy. rewrite Qcplus_0_l. do 4 (apply Sigma_ext; intros ? ?).
    unfold rdV, at4. rewrite <- EL, !Nat.mul_assoc. reflexivity.
  - split; [|split].
    + intros i j Hi Hj. unfold at2. rewrite B2; [apply A1; auto|]. intros a b Ha Hb E. destruct HP as [HL _]. apply (pos2_inj LDD) in E; lia.
    + intros a b Ha Hb. apply A2; auto.
    + intros x H1 H2. rewrite B2 by auto. apply B1; auto.
Qed.

(** properties of the density matrix *)
Lemma mp2_trace no nv t : (Sigma no (fun i => occupied_block no nv t i i) + Sigma nv (fun a => virtual_block no nv t a a) = two * inject no)%Qc.
Proof.
  unfold occupied_block, virtual_block.
  rewrite (Sigma_ext no _ (fun i => two - two * Sigma no (fun k => Sigma nv (fun a => Sigma nv (fun b => t i k a b * (two * t i k a b - t i k b a)))))%Qc) by (intros i Hi; rewrite Nat.eqb_refl; reflexivity).
  rewrite Sigma_minus, !Sigma_scale.
  rewrite (Sigma_swap3 nv no no).
  rewrite (Sigma_ext2 no no (fun i j => Sigma nv (fun a => Sigma nv (fun c => t i j c a * (two * t i j c a - t i j a c))))%Qc (fun i k => Sigma nv (fun a => Sigma nv (fun b => t i k a b * (two * t i k a b - t i k b a))))%Qc).
  2:{ intros i j _ _. apply Sigma_swap. }
  replace (Sigma no (fun _ => two)) with (two * inject no)%Qc; [ring|].
  rewrite (Sigma_ext no (fun _ => two) (fun _ => two * 1)%Qc) by (intros; ring). rewrite Sigma_scale. f_equal.
  unfold Sigma. clear. generalize 0%nat. induction no as [|n IH]; intros k; cbn [seq]; [reflexivity|]. rewrite inject_S, (IH (S k)). reflexivity.
Qed.
Lemma occupied_sym no nv t i j : occupied_block no nv t i j = occupied_block no nv t j i.
Proof.
  unfold occupied_block. rewrite (Nat.eqb_sym j i). do 2 f_equal. apply Sigma_ext. intros k _.
  transitivity (Sigma nv (fun a => Sigma nv (fun b => two * (t i k a b * t j k a b))) - Sigma nv (fun a => Sigma nv (fun b => t i k a b * t j k b a)))%Qc.
  { rewrite <- Sigma_minus. apply Sigma_ext. intros a _. rewrite <- Sigma_minus. apply Sigma_ext. intros. ring. }
  rewrite (Sigma_swap nv nv (fun a b => t i k a b * t j k b a)%Qc). rewrite <- Sigma_minus. apply Sigma_ext. intros a _.
  rewrite <- Sigma_minus. apply Sigma_ext. intros. ring.
Qed.
Lemma virtual_sym no nv t a b : (forall i j c d, i < no -> j < no -> c < nv -> d < nv -> t i j c d = t j i d c) -> a < nv -> b < nv ->
  virtual_block no nv t a b = virtual_block no nv t b a.
Proof.
  intros Ht Ha Hb. unfold virtual_block. f_equal.
  transitivity (Sigma no (fun i => Sigma no (fun j => Sigma nv (fun c => two * (t i j c a * t i j c b)))) - Sigma no (fun i => Sigma no (fun j => Sigma nv (fun c => t i j c a * t i j b c))))%Qc.
  { rewrite <- Sigma_minus. apply Sigma_ext. intros i _. rewrite <- Sigma_minus. apply Sigma_ext. intros j _. rewrite <- Sigma_minus. apply Sigma_ext. intros. ring. }
  rewrite (Sigma_swap no no (fun i j => Sigma nv (fun c => t i j c a * t i j b c)))%Qc.
  rewrite <- Sigma_minus. apply Sigma_ext. intros i Hi. rewrite <- Sigma_minus. apply Sigma_ext. intros j Hj. rewrite <- Sigma_minus. apply Sigma_ext. intros c Hc.
  rewrite (Ht j i c a), (Ht j i b c) by auto. ring.
Qed.
Lemma amplitude_sym no nv V eps i j a b : pair_symmetric (no + nv) V -> i < no -> j < no -> a < nv -> b < nv -> amplitude no V eps i j a b = amplitude no V eps j i b a.
Proof. intros HV Hi Hj Ha Hb. unfold amplitude. rewrite (HV i (a + no) j (b + no)) by lia. f_equal. unfold denominator. ring. Qed.

(** natural orbitals: what the eigensolver is given *)
Lemma natural_ok syev norb no nv T LDT V LDV C LDC : norb = no + nv -> fits2 T LDT norb norb -> fits4 V LDV norb -> fits2 C LDC norb norb ->
  (forall p q, p < norb -> q < norb -> at2 C LDC p q = 0%Qc) ->
  let eps := orbital_energy no (at2 T LDT) (at4 V LDV) in let t := amplitude no (at4 V LDV) eps in
  (forall i j a b, i < no -> j < no -> a < nv -> b < nv -> denominator no eps i j a b <> 0%Qc) ->
  exists A, length A = length C /\ (forall p q, p < norb -> q < norb -> at2 A LDC p q = (- mp2_density no nv t p q)%Qc) /\
    forall C' w, syev norb A LDC = Ok (C', w) -> norb <= length w ->
      exists ON, mp2_natural_orbitals syev norb no nv T LDT V LDV C LDC = Ok (ON, C') /\ forall p, p < norb -> nth p ON 0%Qc = (- nth p w 0)%Qc.
Proof.
  intros En HT HV HC HZ eps t Hd. unfold mp2_natural_orbitals.
  destruct (mp2_1rdm_ok norb no nv T LDT V LDV C LDC En HT HV HC Hd) as (E & P & -> & _ & LP & Hoo & Hvv & Hr). cbn [bind].
  match goal with |- context [foldM (loop2 norb norb) ?f P] =>
    destruct (foldM_cells 0%Qc f (fun pq : nat * nat => fst pq + snd pq * LDC) (fun _ c => (- c)%Qc) (loop2 norb norb) P (length P)) as (A & EA & LA & HA & _) end; auto.
  { apply nodup_map_inj; [apply nodup_loop2|]. intros [p q] [p' q'] H H' E'. apply in_loop2 in H, H'. cbn in E'. destruct HC as [HL _].
    apply (pos2_inj LDC) in E'; [|lia|lia]. destruct E'; subst; auto. }
  { intros [p q] H. apply in_loop2 in H. cbn. rewrite LP. apply HC; tauto. }
  { intros s [p q] H Ls. apply in_loop2 in H. cbn [fst snd]. assert (p + q * LDC < length s) by (rewrite Ls, LP; apply HC; tauto).
    rewrite (at_ok _ _ 0%Qc) by auto. cbn [bind]. apply put_ok; auto. }
  exists A. split; [congruence|]. split.
  - intros p q Hp Hq. unfold at2. transitivity (- nth (p + q * LDC) P 0)%Qc; [apply (HA (p, q)); apply in_loop2; auto|]. f_equal.
    unfold mp2_density. destruct HC as [HL HB].
    destruct (Nat.ltb_spec p no) as [a|a], (Nat.ltb_spec q no) as [b|b], (Nat.leb_spec no p) as [c|c], (Nat.leb_spec no q) as [d|d]; try lia; cbn [andb].
    + apply (Hoo p q); auto.
    + rewrite Hr; [apply HZ; auto| |]; intros i j Hi Hj E'; apply (pos2_inj LDC) in E'; lia.
    + rewrite Hr; [apply HZ; auto| |]; intros i j Hi Hj E'; apply (pos2_inj LDC) in E'; lia.
    + rewrite <- Hvv by lia. unfold at2. f_equal. f_equal; [lia|]. f_equal. lia.
  - intros C' w Es Hw. rewrite EA. cbn [bind]. rewrite Es. cbn [bind].
    match goal with |- context [foldM (seq 0 norb) ?f w] => destruct (foldM_cells 0%Qc f (fun p => p) (fun _ o => (- o)%Qc) (seq 0 norb) w (length w)) as (ON & EO & LO & HO & _) end; auto.
    { rewrite map_id. apply seq_NoDup. } { intros i Hi. apply in_seq in Hi. lia. }
    { intros s i Hi Ls. apply in_seq in Hi. rewrite (at_ok _ _ 0%Qc) by lia. cbn [bind]. apply put_ok. lia. }
    exists ON. rewrite EO. split; [reflexivity|]. intros p Hp. apply HO. apply in_seq. lia.
Qed.
