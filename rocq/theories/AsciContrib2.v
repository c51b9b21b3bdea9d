(** The three loops of determinant_contributions.hpp and their union. *)
From Coq Require Import QArith Qcanon Sorting.Permutation Sorting.Sorted.
From Verif Require Import Base Nondet Bits BitsProofs SD Spec SDProofs SDProofs2 SDProofs3 SDProofs4 SDProofs5 Sums
  FockSpec FockProofs SlaterCondon Ham
  HamProofs HamProofs2 HamProofs3 HamProofs4 HamProofs5 HamProofs6 HamProofs7 HamProofs8 PropsHamGlue
  Asci AsciSpec AsciSort AsciContrib.
Local Open Scope nat_scope.

Lemma collect_ok {A B T} (f : A -> res (option B)) (d : A -> T) (p bd : T -> bool) (g : T -> B) l :
  (forall a, In a l -> f a = if p (d a) then if bd (d a) then Err NonFinite else Ok (Some (g (d a))) else Ok None) ->
  collect f l = if existsb (fun t => p t && bd t) (map d l) then Err NonFinite else Ok (map g (filter p (map d l))).
Proof.
  induction l as [|a l IH]; intros H; cbn [collect filter map existsb]; auto.
  rewrite H by (left; auto). rewrite IH by (intros; apply H; right; auto).
  destruct (p (d a)); cbn [andb orb bind].
  - destruct (bd (d a)); cbn [andb orb bind]; auto. destruct (existsb _ _); reflexivity.
  - destruct (existsb _ _); reflexivity.
Qed.
Lemma NoDup_prod {A B} (l1 : list A) (l2 : list B) : NoDup l1 -> NoDup l2 -> NoDup (list_prod l1 l2).
Proof.
  induction 1 as [|a l1 Ha N1 IH]; intros N2; cbn [list_prod]; [constructor|].
  apply NoDup_app; auto.
  - apply NoDup_map_inj; auto. intros; congruence.
  - intros [x y] H1 H2. apply in_map_iff in H1. destruct H1 as (z & E & _). injection E as -> ->.
    apply in_prod_iff in H2. tauto.
Qed.

Lemma ss_quads_In occ vir i a j b : StronglySorted lt occ -> StronglySorted lt vir ->
  In (i, a, j, b) (ss_quads occ vir) <-> (In i occ /\ In j occ /\ i < j) /\ (In a vir /\ In b vir /\ a < b).
Proof.
  intros Ho Hv. unfold ss_quads. rewrite in_flat_map. split.
  - intros ([i' ri] & Hi & H). apply in_flat_map in H. destruct H as ([a' ra] & Ha & H).
    apply in_flat_map in H. destruct H as (j' & Hj & H). apply in_map_iff in H.
    destruct H as (b' & E & Hb). cbn [fst snd] in *. injection E as -> -> -> ->. split.
    + apply (sorted_pairs_In occ); eauto.
    + apply (sorted_pairs_In vir); eauto.
  - intros [Hij Hab]. apply (sorted_pairs_In occ) in Hij; auto. apply (sorted_pairs_In vir) in Hab; auto.
    destruct Hij as (ri & Hi & Hj), Hab as (ra & Ha & Hb).
    exists (i, ri). split; auto. apply in_flat_map. exists (a, ra). split; auto.
    apply in_flat_map. exists j. split; auto. apply in_map_iff. exists b. auto.
Qed.
Lemma tails_unique (l : list nat) i r r' : NoDup l -> In (i, r) (tails l) -> In (i, r') (tails l) -> r = r'.
Proof.
  intros N H H'. induction l as [|o l IH]; cbn [tails In] in *; [tauto|]. inversion N; subst.
  assert (F : forall r, In (i, r) (tails l) -> In i l).
  { intros q Hq. rewrite <- (tails_fst l). apply (in_map fst) in Hq. exact Hq. }
  destruct H as [E|H], H' as [E'|H'].
  - congruence.
  - injection E as -> ->. apply F in H'. tauto.
  - injection E' as -> ->. apply F in H. tauto.
  - auto.
Qed.
Lemma ss_quads_NoDup occ vir : StronglySorted lt occ -> StronglySorted lt vir -> NoDup (ss_quads occ vir).
Proof.
  intros Ho Hv. pose proof (sorted_NoDup _ Ho) as No. pose proof (sorted_NoDup _ Hv) as Nv.
  unfold ss_quads. apply NoDup_flat_map; [apply tails_NoDup; auto| |].
  - intros [i ri] Hi. destruct (sorted_tails_In _ Ho _ _ Hi) as (_ & Hri & _).
    apply NoDup_flat_map; [apply tails_NoDup; auto| |].
    + intros [a ra] Ha. destruct (sorted_tails_In _ Hv _ _ Ha) as (_ & Hra & _).
      apply NoDup_flat_map; [apply sorted_NoDup; auto| |].
      * intros j _. apply NoDup_map_inj; [|apply sorted_NoDup; auto]. intros x y _ _ E. congruence.
      * intros j k x _ _ H1 H2. apply in_map_iff in H1, H2. cbn [fst snd] in *.
        destruct H1 as (? & <- & _), H2 as (? & E & _). congruence.
    + intros [a ra] [a' ra'] x Ha Ha' H1 H2. apply in_flat_map in H1, H2.
      destruct H1 as (? & _ & H1), H2 as (? & _ & H2). apply in_map_iff in H1, H2.
      destruct H1 as (? & <- & _), H2 as (? & E & _). cbn [fst snd] in *.
      assert (a = a') by congruence. subst a'. f_equal. apply (tails_unique vir a); auto.
  - intros [i ri] [i' ri'] x Hi Hi' H1 H2. apply in_flat_map in H1, H2.
    destruct H1 as ([a ra] & _ & H1), H2 as ([a' ra'] & _ & H2). apply in_flat_map in H1, H2.
    destruct H1 as (? & _ & H1), H2 as (? & _ & H2). apply in_map_iff in H1, H2.
    destruct H1 as (? & <- & _), H2 as (? & E & _). cbn [fst snd] in *.
    assert (i = i') by congruence. subst i'. f_equal. apply (tails_unique occ i); auto.
Qed.

(** equal strings of the other spin *)
Lemma moves_refl_iff s t : moves 0 s t <-> s = t.
Proof.
  split; [|intros ->; apply moves_0; auto]. intros H. apply moves_0 in H. auto.
Qed.

Section LOOPS.
  Variables (W : nat) (HW : spin_width W) (h : ints).
  Notation n := (norb h).
  Hypothesis Hn : n <= W / 2.
  Hypothesis Vs : forall p q r s, p < n -> q < n -> r < n -> s < n ->
     V_pqrs h p q r s = V_pqrs h r s p q.
  Notation Hm := (ham W n (T_pq h) (V_pqrs h)).
  Variables (tol E0 coeff : Qc) (D : N).
  Hypothesis G : in_space W n D.
  Notation occ s := (positions n (str W s D)).
  Notation vir s := (virt n (str W s D)).

  Definition big t : bool := negb (abs_lt (Hm t D) tol).
  Definition val t : Qc := (coeff * (Hm t D / (E0 - Hm t t)))%Qc.
  Definition shift_of (s : bool) := if s then W / 2 else 0.

  Definition T1 (s : bool) : list N := map (fun ia => ex1 W D s (fst ia) (snd ia)) (list_prod (occ s) (vir s)).
  Definition T2 (s : bool) : list N :=
    map (fun q => let '(i, a, j, b) := q in ex2 W D s i a j b) (ss_quads (occ s) (vir s)).
  Definition TO : list N :=
    map (fun q => exo W D (fst (fst q)) (snd (fst q)) (fst (snd q)) (snd (snd q)))
        (list_prod (list_prod (occ false) (vir false)) (list_prod (occ true) (vir true))).

  Definition bad t : bool := if Qc_eq_dec (E0 - Hm t t)%Qc 0 then true else false.
  Definition run (l : list N) : res (list contrib) :=
    if existsb (fun t => big t && bad t) l then Err NonFinite else Ok (map (fun t => (t, val t)) (filter big l)).
  Lemma fdiv_val t x : x = Hm t D ->
    (do r <- fdiv x (E0 - Hm t t)%Qc; Ok (Some (t, (coeff * r)%Qc))) =
    if bad t then Err NonFinite else Ok (Some (t, val t)).
  Proof. intros ->. unfold fdiv, bad. destruct (Qc_eq_dec (E0 - Hm t t)%Qc 0); reflexivity. Qed.

  Lemma str_wf_D s : wf n (str W s D).
  Proof. destruct G, s; auto. Qed.
  Lemma half_le : forall k, k < n -> k + W / 2 < W.
  Proof. intros. pose proof (spin_width_half W HW). lia. Qed.
  Lemma flip_so x s k : k < n -> bs_flip W x (k + shift_of s) = Ok (flipb x (so W s k)).
  Proof.
    intros Hk. unfold bs_flip, shift_of, so. pose proof (half_le k Hk).
    destruct s.
    - destruct (Nat.ltb_spec (k + W / 2) W); [reflexivity|lia].
    - rewrite Nat.add_0_r. destruct (Nat.ltb_spec k W); [reflexivity|lia].
  Qed.

  Definition ens_good s ens := forall i, i < n -> exists e, at_ ens i = Ok e /\
    single_orbital_en h i (occ s) (occ (negb s)) = Ok e.

  Lemma singles_loop s ens : ens_good s ens ->
    append_singles_contrib W (shift_of s) h coeff D (str W s D) (occ s) (vir s) (occ (negb s)) ens tol (Hm D D) E0
    = run (T1 s).
  Proof.
    intros He. unfold append_singles_contrib, run. unfold T1 at 1 2.
    apply (collect_ok _ (fun ia : nat * nat => ex1 W D s (fst ia) (snd ia)) big bad). intros [i a] Hia. cbn [fst snd].
    apply in_prod_iff in Hia. destruct Hia as [Hi Ha]. apply positions_In in Hi. apply virt_In in Ha.
    destruct Hi as [Hi Ti], Ha as [Ha Ta].
    pose proof (hv1_code W h D s i a Hi Ha) as HV.
    pose proof (ham_ex1 W h Hn Vs D s i a G Hi Ha Ti Ta) as HM.
    destruct (T_at h a i) as [h0|]; [|discriminate HV]. cbn [bind] in *.
    destruct (sumM h0 _ _) as [h1|]; [|discriminate HV]. cbn [bind] in *. rewrite HV. cbn [bind].
    assert (AB : abs_lt (hv1 W h D s i a) tol = negb (big (ex1 W D s i a))).
    { unfold big. rewrite negb_involutive, HM. unfold abs_lt. rewrite Qcabs_sgn. reflexivity. }
    rewrite AB. destruct (big (ex1 W D s i a)) eqn:B; cbn [negb]; [|reflexivity].
    rewrite flip_so by auto. cbn [bind]. rewrite flip_so by auto. cbn [bind].
    rewrite (sign_ex1 W h Hn D s i a G Hi Ha Ti Ta (W / 2)) by auto. cbn [bind].
    pose proof (diag_ex1 W HW h Hn Vs D s i a ens G Hi Ha Ti Ta He) as DG.
    destruct (at_ ens i) as [ei|]; [|discriminate DG]. cbn [bind] in *.
    destruct (at_ ens a) as [ea|]; [|discriminate DG]. cbn [bind] in *. rewrite DG. cbn [bind].
    apply (fdiv_val (ex1 W D s i a)); auto. rewrite HM. ring.
  Qed.

  Lemma ss_loop s ens : ens_good s ens ->
    append_ss_doubles_contrib W (shift_of s) h coeff D (str W s D) (occ s) (vir s) ens tol (Hm D D) E0
    = run (T2 s).
  Proof.
    intros He. unfold append_ss_doubles_contrib, run. unfold T2 at 1 2.
    apply (collect_ok _ (fun q : nat * nat * nat * nat => let '(i, a, j, b) := q in ex2 W D s i a j b) big bad). intros [[[i a] j] b] Hq.
    apply ss_quads_In in Hq; [|apply positions_sorted|apply virt_sorted].
    destruct Hq as ((Hi & Hj & Lij) & Ha & Hb & Lab). apply positions_In in Hi, Hj. apply virt_In in Ha, Hb.
    destruct Hi as [Hi Ti], Hj as [Hj Tj], Ha as [Ha Ta], Hb as [Hb Tb].
    pose proof (ham_ex2 W h Hn Vs D s i a j b G Hi Ha Hj Hb Lij Lab Ti Ta Tj Tb) as HM.
    rewrite G_at_ok by auto. cbn [bind].
    assert (AB : abs_lt (G_pqrs h b j a i) tol = negb (big (ex2 W D s i a j b))).
    { unfold big. rewrite negb_involutive, HM. unfold abs_lt. rewrite Qcabs_sgn. reflexivity. }
    rewrite AB. destruct (big (ex2 W D s i a j b)) eqn:B; cbn [negb]; [|reflexivity].
    rewrite excite_ok. 2:{ cbn [In]. intros k Hk. intuition lia. } cbn [bind fold_left].
    set (X := flipb (flipb (flipb (flipb 0 i) j) a) b).
    assert (EX : forall k, tb X k = xorb (xorb (xorb (k =? i) (k =? j)) (k =? a)) (k =? b)).
    { intros k. unfold X. rewrite !tb_flip, tb_0, xorb_false_l. reflexivity. }
    assert (E1 : N.lxor (str W s D) X = flip4 (str W s D) (i, a, j, b)).
    { apply tb_ext. intros k. unfold flip4. rewrite tb_xor, EX, !tb_flip.
      destruct (tb (str W s D) k), (k =? i), (k =? a), (k =? j), (k =? b); reflexivity. }
    assert (E2 : X = N.lxor (flip4 (str W s D) (i, a, j, b)) (str W s D)).
    { rewrite <- E1. apply tb_ext. intros k. rewrite !tb_xor. destruct (tb X k), (tb (str W s D) k); reflexivity. }
    assert (WX : wf (W / 2) X).
    { intros k Hk. rewrite EX. repeat match goal with |- context [?x =? ?y] => destruct (Nat.eqb_spec x y); try lia end. auto. }
    rewrite E1. rewrite E2 at 1.
    rewrite (sign_ex2 W h Hn D s i a j b G Hi Ha Hj Hb Lij Lab Ti Ta Tj Tb (W / 2)) by auto. cbn [bind].
    pose proof (spin_width_half W HW) as WH.
    rewrite expand_ok by (auto; lia). cbn [bind].
    assert (E3 : N.lxor D (bs_shl W X (shift_of s)) = ex2 W D s i a j b).
    { apply tb_ext. intros k. unfold ex2, ex1. rewrite tb_xor, tb_bs_shl, EX, !tb_flip.
      pose proof (half_le i Hi). pose proof (half_le j Hj). pose proof (half_le a Ha). pose proof (half_le b Hb).
      unfold shift_of, so. destruct s.
      - destruct (Nat.ltb_spec k W), (Nat.leb_spec (W / 2) k); cbn [andb];
        repeat match goal with |- context [?x =? ?y] => destruct (Nat.eqb_spec x y); try lia end;
        destruct (tb D k); reflexivity.
      - rewrite Nat.sub_0_r. destruct (Nat.ltb_spec k W), (Nat.leb_spec 0 k); cbn [andb]; try lia;
        repeat match goal with |- context [?x =? ?y] => destruct (Nat.eqb_spec x y); try lia end;
        destruct (tb D k); reflexivity. }
    rewrite E3.
    pose proof (diag_ex2 W HW h Hn Vs D s i a j b ens G Hi Ha Hj Hb Lij Lab Ti Ta Tj Tb He) as DG.
    destruct (at_ ens i) as [ei|]; [|discriminate DG]. cbn [bind] in *.
    destruct (at_ ens j) as [ej|]; [|discriminate DG]. cbn [bind] in *.
    destruct (at_ ens a) as [ea|]; [|discriminate DG]. cbn [bind] in *.
    destruct (at_ ens b) as [eb|]; [|discriminate DG]. cbn [bind] in *. rewrite DG. cbn [bind].
    apply (fdiv_val (ex2 W D s i a j b)); auto.
  Qed.

  Lemma os_loop ens1 ens2 : ens_good false ens1 -> ens_good true ens2 ->
    append_os_doubles_contrib W h coeff D (str W false D) (str W true D) (occ false) (occ true)
      (vir false) (vir true) ens1 ens2 tol (Hm D D) E0
    = run TO.
  Proof.
    intros He1 He2. unfold append_os_doubles_contrib, run. unfold TO at 1 2.
    apply (collect_ok _ (fun q : (nat * nat) * (nat * nat) =>
      exo W D (fst (fst q)) (snd (fst q)) (fst (snd q)) (snd (snd q))) big bad). intros [[i a] [j b]] Hq.
    apply in_prod_iff in Hq. destruct Hq as [Hia Hjb]. apply in_prod_iff in Hia, Hjb.
    destruct Hia as [Hi Ha], Hjb as [Hj Hb]. apply positions_In in Hi, Hj. apply virt_In in Ha, Hb.
    destruct Hi as [Hi Ti], Hj as [Hj Tj], Ha as [Ha Ta], Hb as [Hb Tb]. cbn [fst snd].
    pose proof (ham_exo W h Hn Vs D i a j b G Hi Ha Hj Hb Ti Ta Tj Tb) as HM.
    rewrite (sign_ex1 W h Hn D false i a G Hi Ha Ti Ta (W / 2)) by auto. cbn [bind].
    rewrite V_at_ok by auto. cbn [bind].
    assert (AB : abs_lt (V_pqrs h a i b j) tol = negb (big (exo W D i a j b))).
    { unfold big. rewrite negb_involutive, HM. unfold abs_lt. rewrite <- Qcmult_assoc, !Qcabs_sgn. reflexivity. }
    rewrite AB. destruct (big (exo W D i a j b)) eqn:B; cbn [negb]; [|reflexivity].
    rewrite (sign_ex1 W h Hn D true j b G Hj Hb Tj Tb (W / 2)) by auto. cbn [bind].
    pose proof (flip_so D false a Ha) as F1. cbn [shift_of] in F1. rewrite Nat.add_0_r in F1. rewrite F1. cbn [bind].
    pose proof (flip_so (flipb D (so W false a)) false i Hi) as F2. cbn [shift_of] in F2. rewrite Nat.add_0_r in F2.
    rewrite F2. cbn [bind].
    pose proof (fun x => flip_so x true j Hj) as F3. cbn [shift_of] in F3. rewrite F3. cbn [bind].
    pose proof (fun x => flip_so x true b Hb) as F4. cbn [shift_of] in F4. rewrite F4. cbn [bind].
    assert (E3 : flipb (flipb (flipb (flipb D (so W false a)) (so W false i)) (so W true j)) (so W true b)
      = exo W D i a j b).
    { unfold exo, ex1. apply tb_ext. intros k. rewrite !tb_flip.
      destruct (tb D k), (k =? so W false a), (k =? so W false i); reflexivity. }
    rewrite E3.
    pose proof (diag_exo W HW h Hn Vs D i a j b ens1 ens2 G Hi Ha Hj Hb Ti Ta Tj Tb He1 He2) as DG.
    destruct (at_ ens1 i) as [ei|]; [|discriminate DG]. cbn [bind] in *.
    destruct (at_ ens2 j) as [ej|]; [|discriminate DG]. cbn [bind] in *.
    destruct (at_ ens1 a) as [ea|]; [|discriminate DG]. cbn [bind] in *.
    destruct (at_ ens2 b) as [eb|]; [|discriminate DG]. cbn [bind] in *. rewrite DG. cbn [bind].
    apply (fdiv_val (exo W D i a j b)); auto.
  Qed.

  (** the targets *)
  Lemma T1_In s t : In t (T1 s) <-> in_space W n t /\ moves 1 (str W s D) (str W s t) /\ str W (negb s) t = str W (negb s) D.
  Proof.
    unfold T1. rewrite in_map_iff. split.
    - intros ([i a] & <- & H). apply in_prod_iff in H. destruct H as [Hi Ha]. apply positions_In in Hi.
      apply virt_In in Ha. destruct Hi as [Hi Ti], Ha as [Ha Ta]. cbn [fst snd].
      split; [apply ex1_space; auto|]. destruct (ex1_str W h Hn D s i a Hi Ha) as [-> ->].
      split; auto. apply moves_1. exists i, a. auto.
    - intros (Gt & M & E).
      assert (X : In (str W s t) (singles_of (str W s D) (occ s) (vir s))).
      { apply singles_moves; [apply str_wf_D|]. split; auto. destruct Gt, s; auto. }
      apply singles_of_In in X. destruct X as (i & a & Hi & Ha & Et). exists (i, a). cbn [fst snd].
      split; [|apply in_prod_iff; auto]. apply positions_In in Hi. apply virt_In in Ha.
      destruct (ex1_str W h Hn D s i a (proj1 Hi) (proj1 Ha)) as [A B]. apply (str_ext2 W s); congruence.
  Qed.
  Lemma T2_In s t : In t (T2 s) <-> in_space W n t /\ moves 2 (str W s D) (str W s t) /\ str W (negb s) t = str W (negb s) D.
  Proof.
    unfold T2. rewrite in_map_iff. split.
    - intros ([[[i a] j] b] & <- & H). apply ss_quads_In in H; [|apply positions_sorted|apply virt_sorted].
      destruct H as ((Hi & Hj & Lij) & Ha & Hb & Lab). apply positions_In in Hi, Hj. apply virt_In in Ha, Hb.
      destruct Hi as [Hi Ti], Hj as [Hj Tj], Ha as [Ha Ta], Hb as [Hb Tb].
      split; [apply ex2_space; auto|]. destruct (ex2_str W h Hn D s i a j b Hi Ha Hj Hb) as [-> ->].
      split; auto. apply moves_2. exists i, a, j, b. auto 6.
    - intros (Gt & M & E).
      assert (X : In (str W s t) (doubles_of (str W s D) (occ s) (vir s))).
      { apply doubles_moves; [apply str_wf_D|]. split; auto. destruct Gt, s; auto. }
      apply doubles_of_In in X; [|apply positions_sorted|apply virt_sorted].
      destruct X as (i & a & j & b & Ho & Hv & Et). exists (i, a, j, b).
      split; [|apply ss_quads_In; auto; [apply positions_sorted|apply virt_sorted]].
      destruct Ho as (Hi & Hj & _), Hv as (Ha & Hb & _). apply positions_In in Hi, Hj. apply virt_In in Ha, Hb.
      destruct (ex2_str W h Hn D s i a j b (proj1 Hi) (proj1 Ha) (proj1 Hj) (proj1 Hb)) as [A B].
      apply (str_ext2 W s); congruence.
  Qed.
  Lemma TO_In t : In t TO <-> in_space W n t /\ moves 1 (str W false D) (str W false t) /\ moves 1 (str W true D) (str W true t).
  Proof.
    unfold TO. rewrite in_map_iff. split.
    - intros ([[i a] [j b]] & <- & H). apply in_prod_iff in H. destruct H as [H1 H2]. apply in_prod_iff in H1, H2.
      destruct H1 as [Hi Ha], H2 as [Hj Hb]. apply positions_In in Hi, Hj. apply virt_In in Ha, Hb.
      destruct Hi as [Hi Ti], Hj as [Hj Tj], Ha as [Ha Ta], Hb as [Hb Tb]. cbn [fst snd].
      split; [apply exo_space; auto|]. destruct (exo_str W h Hn D i a j b Hi Ha Hj Hb) as [-> ->].
      split; apply moves_1; [exists i, a|exists j, b]; auto.
    - intros (Gt & M1 & M2).
      assert (X1 : In (str W false t) (singles_of (str W false D) (occ false) (vir false))).
      { apply singles_moves; [apply str_wf_D|]. split; auto. destruct Gt; auto. }
      assert (X2 : In (str W true t) (singles_of (str W true D) (occ true) (vir true))).
      { apply singles_moves; [apply str_wf_D|]. split; auto. destruct Gt; auto. }
      apply singles_of_In in X1, X2. destruct X1 as (i & a & Hi & Ha & Et1), X2 as (j & b & Hj & Hb & Et2).
      exists ((i, a), (j, b)). cbn [fst snd]. split; [|repeat (apply in_prod_iff; split); auto].
      apply positions_In in Hi, Hj. apply virt_In in Ha, Hb.
      destruct (exo_str W h Hn D i a j b (proj1 Hi) (proj1 Ha) (proj1 Hj) (proj1 Hb)) as [A B].
      apply (str_ext2 W false); cbn [negb]; congruence.
  Qed.
  Lemma T1_NoDup s : NoDup (T1 s).
  Proof.
    apply NoDup_map_inj; [|apply NoDup_prod; [apply positions_NoDup|apply NoDup_filter, seq_NoDup]].
    intros [i a] [i' a'] H H' E. apply in_prod_iff in H, H'. cbn [fst snd] in *.
    destruct H as [Hi Ha], H' as [Hi' Ha']. apply positions_In in Hi, Hi'. apply virt_In in Ha, Ha'.
    destruct (ex1_str W h Hn D s i a) as [A _]; try tauto. destruct (ex1_str W h Hn D s i' a') as [B _]; try tauto.
    rewrite E, B in A. symmetry in A. apply flip2_inj in A; try tauto. destruct A. congruence.
  Qed.
  Lemma T2_NoDup s : NoDup (T2 s).
  Proof.
    apply NoDup_map_inj; [|apply ss_quads_NoDup; [apply positions_sorted|apply virt_sorted]].
    intros [[[i a] j] b] [[[i' a'] j'] b'] H H' E.
    apply ss_quads_In in H, H'; try apply positions_sorted; try apply virt_sorted.
    destruct H as ((Hi & Hj & Lij) & Ha & Hb & Lab), H' as ((Hi' & Hj' & Lij') & Ha' & Hb' & Lab').
    apply positions_In in Hi, Hi', Hj, Hj'. apply virt_In in Ha, Ha', Hb, Hb'.
    destruct (ex2_str W h Hn D s i a j b) as [A _]; try tauto.
    destruct (ex2_str W h Hn D s i' a' j' b') as [B _]; try tauto.
    rewrite E, B in A. symmetry in A. apply flip4_inj in A; tauto.
  Qed.
  Lemma TO_NoDup : NoDup TO.
  Proof.
    apply NoDup_map_inj; [|repeat apply NoDup_prod; try apply positions_NoDup; apply NoDup_filter, seq_NoDup].
    intros [[i a] [j b]] [[i' a'] [j' b']] H H' E. apply in_prod_iff in H, H'. cbn [fst snd] in *.
    destruct H as [H1 H2], H' as [H3 H4]. apply in_prod_iff in H1, H2, H3, H4.
    destruct H1 as [Hi Ha], H2 as [Hj Hb], H3 as [Hi' Ha'], H4 as [Hj' Hb'].
    apply positions_In in Hi, Hi', Hj, Hj'. apply virt_In in Ha, Ha', Hb, Hb'.
    destruct (exo_str W h Hn D i a j b) as [A1 A2]; try tauto.
    destruct (exo_str W h Hn D i' a' j' b') as [B1 B2]; try tauto.
    rewrite E, B1 in A1. rewrite E, B2 in A2. symmetry in A1, A2.
    apply flip2_inj in A1; try tauto. apply flip2_inj in A2; try tauto. destruct A1, A2. congruence.
  Qed.
End LOOPS.
