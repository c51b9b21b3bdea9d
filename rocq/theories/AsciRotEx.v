(** A growth with natural orbitals whose energy is not that of the returned wave function. *)
From Coq Require Import QArith Qcanon Bool.
From Verif Require Import Base SD Spec FockSpec Sums Nondet SlaterCondon Ham HamProofs HamProofs5 PropsHamGlue Mem MemProofs Dense DenseSpec DenseProofs DiisSpec DavSpec DavEx
  Mcscf McscfSpec CasciSpec McscfGlue2 Asci AsciSpec AsciSort AsciSearch AsciSearch2 AsciSearch3 AsciIter AsciGlue AsciRot AsciRotSpec AsciRotProofs AsciRotProofs2.
Local Open Scope nat_scope.

Definition rx_T : list Qc := [0%Qc; (- inject 504)%Qc; (- inject 504)%Qc; inject 1994].
Definition rx_V : list Qc := inject 3575 :: repeat 0%Qc 15.
(** one electron of each spin: alpha in orbital 0, beta in orbital 1; both in orbital 0 *)
Definition rx_D : N := (1 + 2 ^ 33)%N.
Definition rx_D1 : N := (1 + 2 ^ 32)%N.
Definition rx_D2 : N := (2 + 2 ^ 33)%N.
Definition rx_st : settings := mk_settings 2 2 100 (Q2Qc (1 # 100)) 0 1000 true 2 6 (Q2Qc (1 # 1000)).
Definition rx_rs : rot_settings := mk_rot true 2.
Definition rx_E0 : Qc := inject 1994.
Definition qeq (a b : list Qc) : bool := if list_eq_dec Qc_eq_dec a b then true else false.

(** knows the two Hamiltonian matrices that occur *)
Definition entries (h : ints) (dets : list N) : list Qc := map (fun ij => ci_matrix 64 h 0 dets (fst ij) (snd ij)) [(0, 0); (0, 1); (1, 0); (1, 1)].
Definition rx_M1 : list Qc := [inject 3575; (- inject 504)%Qc; (- inject 504)%Qc; inject 1994].
Definition rx_M2 : list Qc := [Q2Qc (48308 # 25); Q2Qc (- 7056 # 25); Q2Qc (- 7056 # 25); Q2Qc (70442 # 25)].
Definition rx_X1 : list Qc := [Q2Qc (7 # 25); Q2Qc (24 # 25)].
Definition rx_X2 : list Qc := [Q2Qc (24 # 25); Q2Qc (7 # 25)].
Definition pick {A} (c1 c2 : bool) (a b : A) : res A := if c1 then Ok a else if c2 then Ok b else Err Throw.
Definition rx_dg (h : ints) : diag := fun dets => det (pick ((length dets =? 2) && qeq (entries h dets) rx_M1) ((length dets =? 2) && qeq (entries h dets) rx_M2)
  (inject 1847, rx_X1) (inject 1850, rx_X2)).
(** knows the eigenvectors of the density *)
Definition rx_ordm : list Qc := [Q2Qc (- 674 # 625); Q2Qc (- 168 # 625); Q2Qc (- 168 # 625); Q2Qc (- 576 # 625)].
Definition rx_U : list Qc := [Q2Qc (4 # 5); Q2Qc (3 # 5); Q2Qc (- 3 # 5); Q2Qc (4 # 5)].
Definition rx_w : list Qc := [Q2Qc (- 32 # 25); Q2Qc (- 18 # 25)].
Definition rx_syev (k : nat) (M : list Qc) : res (list Qc * list Qc) :=
  if (k =? 2) && qeq M rx_ordm then Ok (rx_w, rx_U) else Err Throw.

Ltac two i := destruct i as [|[|i]]; [| |exfalso; lia].
Lemma rx_syev_ok : all_eigenpairs rx_syev.
Proof.
  intros k M w C H _ _. unfold rx_syev in H. destruct (Nat.eqb_spec k 2) as [->|]; [|discriminate]. unfold qeq in H. destruct (list_eq_dec Qc_eq_dec M rx_ordm) as [->|]; [|discriminate].
  cbn [andb] in H. injection H as <- <-. split; [reflexivity|]. split; [reflexivity|]. split; [|split].
  - intros i j Hi Hj. two i; two j; apply Qc_is_canon; vm_compute; reflexivity.
  - intros i j Hi Hj. two i; two j; apply Qc_is_canon; vm_compute; reflexivity.
  - intros i j Hij Hj. two j; two i; try lia; vm_compute; discriminate.
Qed.

Lemma quad2 a b d lam k u v : (0 <= k)%Qc -> a = (lam + k * u * u)%Qc -> b = (k * u * v)%Qc -> d = (lam + k * v * v)%Qc ->
  forall y0 y1, (lam * (y0 * y0 + y1 * y1) <= y0 * (a * y0 + b * y1) + y1 * (b * y0 + d * y1))%Qc.
Proof.
  intros Hk -> -> -> y0 y1. apply Qcle_minus_iff.
  replace (_ + _)%Qc with (k * ((u * y0 + v * y1) * (u * y0 + v * y1)))%Qc by ring.
  replace 0%Qc with (0 * ((u * y0 + v * y1) * (u * y0 + v * y1)))%Qc by ring. apply Qcmult_le_compat_r; [exact Hk|apply sq_nonneg].
Qed.
Lemma Sigma_two f : Sigma 2 f = (f 0%nat + f 1%nat)%Qc. Proof. unfold Sigma. cbn [seq sum]. ring. Qed.
Lemma low2 M lam c k u v : (0 <= k)%Qc -> M 0%nat 0%nat = (lam + k * u * u)%Qc -> M 0%nat 1%nat = (k * u * v)%Qc -> M 1%nat 0%nat = (k * u * v)%Qc -> M 1%nat 1%nat = (lam + k * v * v)%Qc ->
  (c 0%nat * c 0%nat + c 1%nat * c 1%nat = 1)%Qc -> (u * c 0%nat + v * c 1%nat = 0)%Qc -> lowest_eigenpair 2 M lam c.
Proof.
  intros Hk A B B' D N1 Z. split; [|split].
  - unfold norm2. rewrite Sigma_two. exact N1.
  - intros i Hi. rewrite Sigma_two. two i.
    + rewrite A, B. transitivity (lam * c 0%nat + k * u * (u * c 0%nat + v * c 1%nat))%Qc; [ring|]. rewrite Z. ring.
    + rewrite B', D. transitivity (lam * c 1%nat + k * v * (u * c 0%nat + v * c 1%nat))%Qc; [ring|]. rewrite Z. ring.
  - intros y. unfold norm2. rewrite !Sigma_two. rewrite A, B, B', D.
    apply (quad2 (lam + k * u * u) (k * u * v) (lam + k * v * v) lam k u v); auto.
Qed.
Lemma entries_inv h dets a b c d : entries h dets = [a; b; c; d] ->
  ci_matrix 64 h 0 dets 0 0 = a /\ ci_matrix 64 h 0 dets 0 1 = b /\ ci_matrix 64 h 0 dets 1 0 = c /\ ci_matrix 64 h 0 dets 1 1 = d.
Proof. unfold entries. cbn [map fst snd]. generalize (ci_matrix 64 h 0 dets). intros m H. injection H. auto. Qed.
Lemma pick_inv {A} c1 c2 (a b x : A) : pick c1 c2 a b = Ok x -> (c1 = true /\ x = a) \/ (c2 = true /\ x = b).
Proof. unfold pick. destruct c1; [intros H; injection H as ->; auto|]. destruct c2; [|discriminate]. intros H. injection H as ->. auto. Qed.
Lemma hit_inv n a b : (n =? 2) && qeq a b = true -> n = 2 /\ a = b.
Proof. intros H. apply andb_true_iff in H. destruct H as [A B]. apply Nat.eqb_eq in A. unfold qeq in B. destruct (list_eq_dec Qc_eq_dec a b); [auto|discriminate]. Qed.
Lemma rx_low1 (M : nat -> nat -> Qc) : M 0 0 = inject 3575 -> M 0 1 = (- inject 504)%Qc -> M 1 0 = (- inject 504)%Qc -> M 1 1 = inject 1994 ->
  lowest_eigenpair 2 M (inject 1847) (fun i => nth i rx_X1 0%Qc).
Proof.
  intros E1 E2 E3 E4. apply (low2 _ _ _ (inject 3) (inject 24) (- inject 7)); rewrite ?E1, ?E2, ?E3, ?E4; [vm_compute; discriminate| | | | | |]; apply Qc_is_canon; vm_compute; reflexivity.
Qed.
Lemma rx_low2 (M : nat -> nat -> Qc) : M 0 0 = Q2Qc (48308 # 25) -> M 0 1 = Q2Qc (- 7056 # 25) -> M 1 0 = Q2Qc (- 7056 # 25) -> M 1 1 = Q2Qc (70442 # 25) ->
  lowest_eigenpair 2 M (inject 1850) (fun i => nth i rx_X2 0%Qc).
Proof.
  intros E1 E2 E3 E4. apply (low2 _ _ _ (Q2Qc (42 # 25)) (inject 7) (- inject 24)); rewrite ?E1, ?E2, ?E3, ?E4; [vm_compute; discriminate| | | | | |]; apply Qc_is_canon; vm_compute; reflexivity.
Qed.
Lemma pair_inv {A B} (a c : A) (b d : B) : (a, b) = (c, d) -> a = c /\ b = d. Proof. intros H. injection H. auto. Qed.
Lemma rx_dg_ok h dets E X : rx_dg h dets (Ok (E, X)) -> length X = length dets /\ lowest_eigenpair (length dets) (ci_matrix 64 h 0 dets) E (fun i => nth i X 0%Qc).
Proof.
  intros H. apply eq_sym in H. apply pick_inv in H. destruct H as [[C H]|[C H]]; apply hit_inv in C; destruct C as [-> C];
    apply pair_inv in H; destruct H as [-> ->]; (split; [reflexivity|]); apply entries_inv in C; destruct C as (E1 & E2 & E3 & E4).
  - exact (rx_low1 _ E1 E2 E3 E4).
  - exact (rx_low2 _ E1 E2 E3 E4).
Qed.

Notation rx_h := (held 2 (rx_T, rx_V)).
Lemma four p : p < 2 -> p = 0 \/ p = 1. Proof. lia. Qed.
Lemma rx_sym : pair_symmetric 2 (at4 rx_V 2).
Proof.
  intros p q r s Hp Hq Hr Hs. destruct (four p Hp), (four q Hq), (four r Hr), (four s Hs); subst; reflexivity.
Qed.
Lemma rx_core : core_ok 64 rx_h true rx_st rx_E0 rx_D.
Proof.
  split; [spc|]. split; [intros _; vm_compute; auto|]. apply no_res_check; [vm_compute; lia|spc|].
  vm_compute; reflexivity.
Qed.
Notation rx_pairs := (all_contribs 64 rx_h rx_st rx_E0 [1%Qc] 0 [rx_D]).
Lemma rx_score t : is_score 64 rx_h (Q2Qc (1 # 100)) true rx_E0 [rx_D] [1%Qc] t (score rx_pairs t).
Proof.
  apply (is_score_all 64 rx_h) with (st := rx_st) (dbg := true); [vm_compute; lia|].
  constructor; [|constructor]. exact rx_core.
Qed.
Lemma rx_nonzero t : score rx_pairs t <> 0%Qc -> t = rx_D1 \/ t = rx_D2.
Proof.
  intros H. destruct (N.eq_dec t rx_D1) as [->|N1]; [left; reflexivity|]. destruct (N.eq_dec t rx_D2) as [->|N2]; [right; reflexivity|]. exfalso. apply H.
  unfold score, vals. replace (filter _ _) with (@nil (N * Qc)); [reflexivity|]. symmetry.
  assert (F : forall l : list (N * Qc), (forall p, In p l -> fst p = rx_D1 \/ fst p = rx_D2) -> filter (fun p : N * Qc => (fst p =? t)%N) l = []).
  { induction l as [|p l IH]; intros Hl; [reflexivity|]. cbn [filter].
    destruct (N.eqb_spec (fst p) t) as [E|]; [exfalso; destruct (Hl p (or_introl eq_refl)); congruence|]. apply IH. intros q Hq. apply Hl. right. exact Hq. }
  apply F. apply Forall_forall.
  assert (B : forallb (fun p : N * Qc => (fst p =? rx_D1)%N || (fst p =? rx_D2)%N) rx_pairs = true) by (vm_compute; reflexivity).
  rewrite forallb_forall in B. apply Forall_forall. intros p Hp. specialize (B p Hp). apply orb_true_iff in B. rewrite !N.eqb_eq in B. exact B.
Qed.
Lemma rx_iter : always (asci_iter true 64 rx_st rx_h (rx_dg rx_h) 2 (rx_E0, [rx_D], [1%Qc]))
  (fun s' => s' = (inject 1847, [rx_D1; rx_D], rx_X1)).
Proof.
  unfold asci_iter. change (1 <? length [rx_D]) with false.
  apply always_bind with (P := fun wX => wX = ([rx_D], [1%Qc])); [apply always_ret; auto|].
  intros wX ->. cbn [fst snd length]. change (Nat.min (ncdets_max rx_st) 1) with 1. cbn [firstn].
  apply always_bind with (P := fun new => new = [rx_D1; rx_D]).
  - eapply always_weaken; [|apply c28; try exact rx_sym].
    + cbn beta. intros out (sel & E & Nd & L & A & B & F).
      assert (L2 : length out = 2).
      { destruct (Nat.lt_ge_cases (length out) 2) as [Hlt|]; [exfalso|lia].
        assert (X : incl [rx_D1; rx_D] out).
        { intros t [<-|[<-|[]]]; [|rewrite E; apply in_or_app; right; left; reflexivity]. apply (F Hlt _ _ (rx_score _)). apply nz_ok. vm_compute. reflexivity. }
        apply NoDup_incl_length in X; [cbn [length] in X; lia|nodupx]. }
      rewrite E, app_length in L2. cbn [length] in L2. destruct sel as [|t [|u sel]]; cbn [length] in L2; [lia| |lia].
      destruct (A t (or_introl eq_refl)) as (_ & x & Hx & X0).
      assert (x = score rx_pairs t) by (eapply is_score_unique; [exact Hx|apply rx_score]). subst x.
      destruct (rx_nonzero t X0) as [->| ->]; [exact E|exfalso].
      assert (NI : ~ In rx_D1 out) by (rewrite E; intros [Q|[Q|[]]]; discriminate Q).
      pose proof (B rx_D2 _ rx_D1 _ (or_introl eq_refl) NI Hx (rx_score rx_D1)) as Q.
      revert Q. vm_compute. intros Q. apply Q. reflexivity.
    + left; reflexivity.
    + vm_compute; lia.
    + intros D [<-|[]]. split; [spc|]. intros _. vm_compute. auto.
    + nodupx.
    + reflexivity.
    + cbn [length]. lia.
    + reflexivity.
    + intros D t [<-|[]]. apply rx_core.
    + apply pairs_check; [vm_compute; lia| |].
      * intros D [<-|[]]. spc.
      * apply Nat.leb_le. vm_compute. reflexivity.
  - intros new ->. apply always_bind with (P := fun EX => EX = (inject 1847, rx_X1)).
    + apply always_det with (a := (inject 1847, rx_X1)); [|reflexivity].
      replace (qeq (entries rx_h [rx_D1; rx_D]) rx_M1) with true by (vm_compute; reflexivity). reflexivity.
    + intros EX ->. apply always_ret. reflexivity.
Qed.

Definition rx_T' : list Qc := [inject 234; inject 816; inject 816; inject 1760].
Definition rx_V' : list Qc := Eval vm_compute in match rotate_integrals 2 rx_U rx_T rx_V with Ok (_, V) => map (fun q => Q2Qc (this q)) V | _ => [] end.
Lemma qeq_ok a b : qeq a b = true -> a = b.
Proof. unfold qeq. destruct (list_eq_dec Qc_eq_dec a b); [auto|discriminate]. Qed.
Definition okp (r : res (list Qc * list Qc)) (a b : list Qc) : bool := match r with Ok (x, y) => qeq x a && qeq y b | _ => false end.
Lemma okp_ok r a b : okp r a b = true -> r = Ok (a, b).
Proof. destruct r as [[x y]|]; [|discriminate]. cbn [okp]. intros H. apply andb_true_iff in H. destruct H as [A B]. rewrite (qeq_ok _ _ A), (qeq_ok _ _ B). reflexivity. Qed.
Lemma rx_natural : natural_orbitals rx_syev 64 2 [rx_D1; rx_D] rx_X1 = Ok ([Q2Qc (32 # 25); Q2Qc (18 # 25)], rx_U).
Proof. apply okp_ok. vm_compute. reflexivity. Qed.
Lemma rx_rotate : rotate_integrals 2 rx_U rx_T rx_V = Ok (rx_T', rx_V').
Proof. apply okp_ok. vm_compute. reflexivity. Qed.
Lemma rx_entries : entries (held 2 (rx_T', rx_V')) [rx_D1; rx_D] = rx_M2.
Proof. apply qeq_ok. vm_compute. reflexivity. Qed.

Definition rx_s0 : wfn_state := (rx_E0, [rx_D], [1%Qc]).
Definition rx_s1 : wfn_state := (inject 1847, [rx_D1; rx_D], rx_X2).
Lemma span_rx T V : 4 <= length T -> 16 <= length V -> span_ints 2 T V = Ok (held 2 (T, V)).
Proof. intros A B. unfold span_ints. change (2 * 2) with 4. change (4 * 4) with 16. rewrite (proj2 (Nat.leb_le _ _) A), (proj2 (Nat.leb_le _ _) B). reflexivity. Qed.
Lemma rx_run f : always (asci_grow_rot rx_syev (S f) true 64 2 rx_st rx_rs rx_dg (rx_T, rx_V) rx_s0)
  (fun r => r = (rx_s1, (rx_T', rx_V'))).
Proof.
  cbn [asci_grow_rot]. unfold rx_s0. cbn iota. change (length [rx_D] <? ntdets_max rx_st) with true. cbn iota.
  change (Nat.min _ _) with 2. cbn [fst snd].
  apply always_bind with (P := fun h => h = rx_h).
  { apply always_det with (a := rx_h); [|reflexivity]. apply span_rx; vm_compute; lia. }
  intros h ->. eapply always_bind; [exact rx_iter|]. intros s' ->. cbn iota.
  change (length [rx_D1; rx_D] <? 2) with false. cbn iota. change (grow_with_rot rx_rs && _) with true. cbn iota.
  apply always_bind with (P := fun R => R = (rx_T', rx_V', rx_X2)).
  - unfold grow_rotation. rewrite rx_natural.
    apply (always_bind _ _ (eq ([Q2Qc (32 # 25); Q2Qc (18 # 25)], rx_U))); [eapply always_det; reflexivity|]. intros NO <-. cbn [snd].
    rewrite rx_rotate. apply (always_bind _ _ (eq (rx_T', rx_V'))); [eapply always_det; reflexivity|]. intros TV <-. cbn iota.
    rewrite span_rx by (vm_compute; lia). apply (always_bind _ _ (eq (held 2 (rx_T', rx_V')))); [eapply always_det; reflexivity|]. intros h <-.
    apply always_bind with (P := fun EX => EX = (inject 1850, rx_X2)).
    + apply always_det with (a := (inject 1850, rx_X2)); [|reflexivity]. rewrite rx_entries.
      replace (qeq rx_M2 rx_M1) with false by (vm_compute; reflexivity). replace (qeq rx_M2 rx_M2) with true by (vm_compute; reflexivity). reflexivity.
    + intros EX ->. apply always_ret. reflexivity.
  - intros R ->. cbn iota. destruct f; cbn [asci_grow_rot]; change (length [rx_D1; rx_D] <? ntdets_max rx_st) with false; cbn iota; apply always_ret; reflexivity.
Qed.
Lemma rx_truth : lowest_eigenpair 2 (ci_matrix 64 (held 2 (rx_T', rx_V')) 0 [rx_D1; rx_D]) (inject 1850) (fun i => nth i rx_X2 0%Qc).
Proof. pose proof rx_entries as E. apply entries_inv in E. destruct E as (E1 & E2 & E3 & E4). exact (rx_low2 _ E1 E2 E3 E4). Qed.
