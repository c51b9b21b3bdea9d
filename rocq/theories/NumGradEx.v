(** Examples for Props_NumGrad: the exponential cut after the second order. *)
From Coq Require Import QArith Qcanon Bool Lia.
From Verif Require Import Base Sums Ham HamProofs Asci Mem MemProofs Dense DenseSpec DenseProofs FockMatProofs RotProofs LinRespProofs HessProofs ExpandProofs SymProofs DenseGlue DenseEx Mcscf DiisProofs McscfProofs NumGrad NumGradSpec NumGradProofs NumGradAcc NumGradGlue.
From Coq Require Import Qcabs.
Local Open Scope nat_scope.

Definition exp2 (n : nat) (A : list Qc) : list Qc :=
  packed n (fun p q => (if p =? q then 1 else 0) + at2 A n p q + half * product n (at2 A n) (at2 A n) p q)%Qc.
Definition expm2 (n : nat) (A : list Qc) : res (list Qc) := Ok (exp2 n A).
Lemma exp2_length n A : length (exp2 n A) = n * n. Proof. apply packed_length. Qed.
Lemma exp2_at n G p q : p < n -> q < n -> at2 (exp2 n (packed n (fun p q => - G p q)%Qc)) n p q = ((if (p =? q)%nat then 1 else 0) - G p q + half * product n G G p q)%Qc.
Proof.
  intros Hp Hq. unfold exp2. rewrite packed_at by auto. rewrite packed_at by auto.
  rewrite (product_ext n _ _ (fun p q => - G p q)%Qc (fun p q => - G p q)%Qc) by (auto; intros; apply packed_at; auto).
  unfold product. rewrite (Sigma_ext_in n (fun l => - G p l * - G l q)%Qc (fun l => G p l * G l q)%Qc) by (intros; ring). ring.
Qed.
Definition X1 (no a i : nat) (t : Qc) : list Qc := exp2 no (packed no (fun p q => - t * pair_rotation a i p q)%Qc).
Definition X2 (no a i b j : nat) (x y : Qc) : list Qc := exp2 no (packed no (fun p q => - (x * pair_rotation a i p q + y * pair_rotation b j p q))%Qc).
Lemma expands_quad f a b c : (forall t, f t = (a + t * b + t * t * c)%Qc) -> expands f a b c.
Proof. intros H. exists 0%Qc. intros t _. rewrite H, Qcmult_0_l. replace (a + t * b + t * t * c - (a + t * b + t * t * c))%Qc with 0%Qc by ring. vm_compute. discriminate. Qed.
Lemma product_scale n t G p q : product n (fun p q => t * G p q)%Qc (fun p q => t * G p q)%Qc p q = (t * t * product n G G p q)%Qc.
Proof. unfold product. rewrite <- Sigma_scale. apply Sigma_ext_in. intros. ring. Qed.
Lemma exponentials_exist : exists expm (X : nat -> nat -> nat -> Qc -> list Qc) (X' : nat -> nat -> nat -> nat -> nat -> Qc -> Qc -> list Qc), forall no,
  (forall a i t, expm no (packed no (fun p q => - t * pair_rotation a i p q)%Qc) = Ok (X no a i t) /\ no * no <= length (X no a i t)) /\
  (forall a i, rotation_family no (fun t => at2 (X no a i t) no) (pair_rotation a i)) /\
  (forall a i b j x y, expm no (packed no (fun p q => - (x * pair_rotation a i p q + y * pair_rotation b j p q))%Qc) = Ok (X' no a i b j x y) /\ no * no <= length (X' no a i b j x y)) /\
  forall a i b j x y, rotation_family no (fun t => at2 (X' no a i b j (t * x) (t * y))%Qc no) (fun p q => x * pair_rotation a i p q + y * pair_rotation b j p q)%Qc.
Proof.
  exists expm2, X1, X2. intros no. split; [|split; [|split]].
  - intros. split; [reflexivity|]. unfold X1. rewrite exp2_length. auto.
  - intros a i p q Hp Hq. apply expands_quad. intros t. unfold X1.
    replace (packed no (fun p q => - t * pair_rotation a i p q)%Qc) with (packed no (fun p q => - (t * pair_rotation a i p q))%Qc) by (unfold packed; apply map_ext; intros; ring).
    rewrite exp2_at by auto. rewrite product_scale. ring.
  - intros. split; [reflexivity|]. unfold X2. rewrite exp2_length. auto.
  - intros a i b j x y p q Hp Hq. apply expands_quad. intros t. unfold X2.
    replace (packed no (fun p q => - (t * x * pair_rotation a i p q + t * y * pair_rotation b j p q))%Qc) with (packed no (fun p q => - (t * (x * pair_rotation a i p q + y * pair_rotation b j p q)))%Qc) by (unfold packed; apply map_ext; intros; ring).
    rewrite exp2_at by auto. rewrite (product_scale no t (fun p q => x * pair_rotation a i p q + y * pair_rotation b j p q)%Qc). ring.
Qed.
Definition q3 : Qc := inject 3.
Definition exT2 : list Qc := [1; inject 2; inject 2; inject 5]%Qc.
Definition exT3 : list Qc := [1; inject 2; q3; inject 2; inject 5; 1; q3; 1; inject 4]%Qc.
Definition z4 (n : nat) : list Qc := repeat 0%Qc n.
Lemma qv_eq (a b : Qc) : this a = this b -> a = b. Proof. intros H. apply Qc_is_canon. rewrite H. reflexivity. Qed.
Definition qdec : forall x y : Q, {x = y} + {x <> y}.
Proof. decide equality; [apply Pos.eq_dec|apply Z.eq_dec]. Defined.
Definition same_list (l : res (list Qc)) (m : list Q) : bool := match l with Ok l => if list_eq_dec qdec (map this l) m then true else false | _ => false end.
Lemma same_list_ok l m : same_list l (map this m) = true -> l = Ok m.
Proof.
  unfold same_list. destruct l as [l|]; [|discriminate]. destruct (list_eq_dec _ _ _) as [E|]; [|discriminate]. intros _. f_equal.
  revert m E. induction l as [|x l IH]; intros [|y m] E; try discriminate E; auto. injection E as E1 E2. f_equal; [apply qv_eq; exact E1|apply IH; exact E2].
Qed.
Definition e2 (U : nat -> nat -> Qc) : Qc := energy_in 2 1 0 (at2 exT2 2) (at4 (z4 16) 2) (at2 [] 1) (at4 [] 1) U.
Lemma at4_zero n LD i j k l : at4 (z4 n) LD i j k l = 0%Qc. Proof. unfold at4, z4. apply nth_repeat. Qed.
Lemma Sigma_zero n f : (forall i, i < n -> f i = 0%Qc) -> Sigma n f = 0%Qc.
Proof. intros H. rewrite (Sigma_ext_in n f (fun _ => 0%Qc) H). apply Sigma_0. Qed.
Lemma congruence4_zero n U m LD p q r s : congruence4 n U (at4 (z4 m) LD) p q r s = 0%Qc.
Proof. unfold congruence4. repeat (apply Sigma_zero; intros). rewrite at4_zero. ring. Qed.
Lemma energy_one_body n T m LD U : energy_in n 1 0 T (at4 (z4 m) LD) (at2 [] 1) (at4 [] 1) U = (two * congruence2 n U T 0 0)%Qc.
Proof.
  unfold energy_in, total_energy, core_energy, valence_energy, shift2, shift4. unfold Sigma. cbn [seq sum]. rewrite !congruence4_zero. ring.
Qed.
Lemma ex_energy t : e2 (at2 (X1 2 1 0 t) 2) = (inject 2 + - inject 8 * t + inject 8 * (t * t) + inject 4 * (t * t * t) + half * (t * t * t * t))%Qc.
Proof.
  unfold e2. rewrite energy_one_body. unfold congruence2, X1.
  replace (packed 2 (fun p q => - t * pair_rotation 1 0 p q)%Qc) with (packed 2 (fun p q => - (t * pair_rotation 1 0 p q))%Qc) by (unfold packed; apply map_ext; intros; ring).
  unfold Sigma. cbn [seq sum]. rewrite !exp2_at by lia. rewrite !product_scale. cbn [Nat.eqb].
  replace (product 2 (pair_rotation 1 0) (pair_rotation 1 0) 0 0) with (- (1))%Qc by (apply Qc_is_canon; vm_compute; reflexivity).
  replace (product 2 (pair_rotation 1 0) (pair_rotation 1 0) 1 0) with 0%Qc by (apply Qc_is_canon; vm_compute; reflexivity).
  change (pair_rotation 1 0 0 0) with 0%Qc. change (pair_rotation 1 0 1 0) with 1%Qc.
  change (at2 exT2 2 0 0) with 1%Qc. change (at2 exT2 2 1 0) with (inject 2). change (at2 exT2 2 0 1) with (inject 2). change (at2 exT2 2 1 1) with (inject 5).
  replace (inject 8) with (two * two * two)%Qc by (apply Qc_is_canon; reflexivity). replace (inject 5) with (two * two + 1)%Qc by (apply Qc_is_canon; reflexivity).
  replace (inject 4) with (two * two)%Qc by (apply Qc_is_canon; reflexivity). replace (inject 2) with two by (apply Qc_is_canon; reflexivity). 
  replace half with (1 / two)%Qc by (apply Qc_is_canon; reflexivity). unfold two. field. discriminate.
Qed.
Lemma ex_quartic : quartic (fun t => e2 (at2 (X1 2 1 0 t) 2)) (inject 2) (- inject 8)%Qc (inject 8) (inject 4) half 0%Qc.
Proof.
  intros t _. rewrite ex_energy, Qcmult_0_l. match goal with |- (Qcabs ?a <= _)%Qc => replace a with 0%Qc by ring end. vm_compute. discriminate.
Qed.
Definition ex_c (m n : nat) : Qc :=
  match (m + n)%nat with
  | 0 => inject 2 | 1 => (- inject 8)%Qc
  | 2 => (inject 8 * nth m [1; inject 2; 1]%Qc 0)%Qc
  | 3 => (inject 4 * nth m [1; inject 3; inject 3; 1]%Qc 0)%Qc
  | 4 => (half * nth m [1; inject 4; inject 6; inject 4; 1]%Qc 0)%Qc | _ => 0%Qc end.
Lemma ex_quintic : quintic2 (fun x y => e2 (at2 (X2 2 1 0 1 0 x y) 2)) ex_c 0%Qc.
Proof.
  intros x y r _ _ _. rewrite Qcmult_0_l.
  replace (X2 2 1 0 1 0 x y) with (X1 2 1 0 (x + y)%Qc) by (unfold X1, X2; f_equal; unfold packed; apply map_ext; intros; ring).
  rewrite ex_energy. match goal with |- (Qcabs ?a <= _)%Qc => replace a with 0%Qc; [vm_compute; discriminate|] end.
  unfold Sigma. cbn [seq sum Nat.sub]. unfold ex_c. cbn [Nat.add nth qpow].
  replace (inject 6) with (inject 2 + inject 4)%Qc by (apply Qc_is_canon; reflexivity). replace (inject 3) with (inject 2 + 1)%Qc by (apply Qc_is_canon; reflexivity).
  replace (inject 4) with (inject 2 * inject 2)%Qc by (apply Qc_is_canon; reflexivity). replace (inject 2) with (1 + 1)%Qc by (apply Qc_is_canon; reflexivity). ring.
Qed.
Lemma ex_grad_run : numerical_orbital_gradient expm2 2 1 0 exT2 2 (z4 16) 2 [] 1 [] 1 (z4 4) 2 = Ok [0; - inject 8; 0; 0]%Qc.
Proof. apply same_list_ok. vm_compute. reflexivity. Qed.
Lemma grad_ld_ref : exists expm no ni na T V D LDD1 D2 LDD2 OG LDOG OG' (X : nat -> nat -> Qc -> list Qc) a i,
  fits2 T no no no /\ fits4 V no no /\ fits2 D LDD1 na na /\ fits4 D2 LDD2 na /\ symmetric2 no (at2 T no) /\ eightfold no (at4 V no) /\ symmetric2 na (at2 D LDD1) /\ fourfold na (at4 D2 LDD2) /\
  fits2 OG LDOG no no /\
  (forall a i t, i < a < no -> expm no (packed no (fun p q => - t * pair_rotation a i p q)%Qc) = Ok (X a i t) /\ no * no <= length (X a i t)) /\
  numerical_orbital_gradient expm no ni na T no V no D LDD1 D2 LDD2 OG LDOG = Ok OG' /\ i < a < no /\
  at2 OG' LDOG a i <> five_point (Q2Qc (Qmake 1 1000)) (fun t => energy_in no ni na (at2 T no) (at4 V no) (at2 D LDD1) (at4 D2 LDD2) (at2 (X a i t) no)).
Proof.
  exists expm2, 3, 2, 0, exT3, (z4 81), [], 1, [], 1, (z4 12), 4, ([0; 0; - inject 12; 0; 0; - inject 4; 0; 0; 0; 0; 0; 0])%Qc, (X1 3), 2, 1.
  split; [apply fits2_lenge; vm_compute; lia|]. split; [apply fits4_lenge; vm_compute; lia|]. split; [split; [lia|intros; lia]|]. split; [split; [lia|intros; lia]|].
  split; [intros p q Hp Hq; destruct p as [|[|[|]]], q as [|[|[|]]]; try lia; reflexivity|]. split; [intros p q r s _ _ _ _; rewrite !at4_zero; auto|].
  split; [intros p q Hp; lia|]. split; [intros p q r s Hp; lia|]. split; [apply fits2_lenge; vm_compute; lia|].
  split; [intros; split; [reflexivity|unfold X1; rewrite exp2_length; auto]|]. split; [apply same_list_ok; vm_compute; reflexivity|]. split; [lia|].
  intros E. apply (f_equal this) in E. vm_compute in E. discriminate E.
Qed.
Lemma hess_missing_ref : exists expm no ni na nv T V D LDD1 D2 LDD2 OH LDOH OH' (X : nat -> nat -> nat -> nat -> Qc -> Qc -> list Qc) a i b j, no = ni + na + nv /\
  fits2 T no no no /\ fits4 V no no /\ fits2 D LDD1 na na /\ fits4 D2 LDD2 na /\ symmetric2 no (at2 T no) /\ eightfold no (at4 V no) /\ symmetric2 na (at2 D LDD1) /\ fourfold na (at4 D2 LDD2) /\
  fits4 OH LDOH no /\
  (forall a i b j x y, expm no (packed no (fun p q => - (x * pair_rotation a i p q + y * pair_rotation b j p q))%Qc) = Ok (X a i b j x y) /\ no * no <= length (X a i b j x y)) /\
  numerical_orbital_hessian expm no ni na T no V no D LDD1 D2 LDD2 OH LDOH = Ok OH' /\ rotates ni na nv a i /\ rotates ni na nv b j /\
  at4 OH' LDOH a i b j <> mixed_five_point (Q2Qc (Qmake 1 1000)) (fun x y => energy_in no ni na (at2 T no) (at4 V no) (at2 D LDD1) (at4 D2 LDD2) (at2 (X a i b j x y) no)).
Proof.
  destruct (numerical_orbital_hessian expm2 3 1 1 exT3 3 (z4 81) 3 [half] 1 [0%Qc] 1 (z4 81) 3) as [OH'|] eqn:EO.
  - exists expm2, 3, 1, 1, 1, exT3, (z4 81), [half], 1, [0%Qc], 1, (z4 81), 3, OH', (X2 3), 2, 1, 1, 0. split; [reflexivity|].
    split; [apply fits2_lenge; vm_compute; lia|]. split; [apply fits4_lenge; vm_compute; lia|]. split; [apply fits2_lenge; vm_compute; lia|]. split; [apply fits4_lenge; vm_compute; lia|].
    split; [intros p q Hp Hq; destruct p as [|[|[|]]], q as [|[|[|]]]; try lia; reflexivity|]. split; [intros p q r s _ _ _ _; rewrite !at4_zero; auto|].
    split; [intros p q Hp Hq; assert (p = 0) by lia; assert (q = 0) by lia; subst; reflexivity|].
    split; [intros p q r s Hp Hq Hr Hs; assert (p = 0) by lia; assert (q = 0) by lia; assert (r = 0) by lia; assert (s = 0) by lia; subst; auto|]. split; [apply fits4_lenge; vm_compute; lia|].
    split; [intros; split; [reflexivity|unfold X2; rewrite exp2_length; auto]|]. split; [exact EO|]. split; [right; lia|]. split; [left; lia|].
    destruct (num_hessian_ok expm2 3 1 1 exT3 3 (z4 81) [half] 1 [0%Qc] 1 ltac:(lia) ltac:(lia) ltac:(lia)) with (X := X2 3) (OH := z4 81) (LDOH := 3) as (OH2 & E2 & _ & _ & K2).
    + apply fits2_lenge; vm_compute; lia. + apply fits4_lenge; vm_compute; lia. + apply fits2_lenge; vm_compute; lia. + apply fits4_lenge; vm_compute; lia.
    + intros p q r s _ _ _ _. rewrite !at4_zero. reflexivity.
    + intros p q Hp Hq; assert (p = 0) by lia; assert (q = 0) by lia; subst; reflexivity.
    + apply fits4_lenge; vm_compute; lia.
    + intros; split; [reflexivity|unfold X2; rewrite exp2_length; auto].
    + rewrite EO in E2. injection E2 as <-. unfold at4. rewrite K2.
      * intros E. apply (f_equal this) in E. vm_compute in E. discriminate E.
      * intros a i b j Ha Hb Hj. lia.
  - exfalso. destruct (num_hessian_ok expm2 3 1 1 exT3 3 (z4 81) [half] 1 [0%Qc] 1 ltac:(lia) ltac:(lia) ltac:(lia)) with (X := X2 3) (OH := z4 81) (LDOH := 3) as (OH2 & E2 & _).
    + apply fits2_lenge; vm_compute; lia. + apply fits4_lenge; vm_compute; lia. + apply fits2_lenge; vm_compute; lia. + apply fits4_lenge; vm_compute; lia.
    + intros p q r s _ _ _ _. rewrite !at4_zero. reflexivity.
    + intros p q Hp Hq; assert (p = 0) by lia; assert (q = 0) by lia; subst; reflexivity.
    + apply fits4_lenge; vm_compute; lia.
    + intros; split; [reflexivity|unfold X2; rewrite exp2_length; auto].
    + congruence.
Qed.
Lemma hess_self_ref : exists OH' a b, numerical_orbital_hessian expm2 2 1 0 exT2 2 (z4 16) 2 [] 1 [] 1 (z4 16) 2 = Ok OH' /\ a < 2 /\ b < 2 /\ at4 OH' 2 a 0 b b <> 0%Qc.
Proof.
  exists [0; 0; 0; 0; 0; inject 16; 0; 0; 0; 0; 0; 0; 0; - inject 4; 0; 0]%Qc, 1, 1. split; [apply same_list_ok; vm_compute; reflexivity|]. split; [lia|]. split; [lia|]. discriminate.
Qed.
Lemma ex_hess_run : exists OH', numerical_orbital_hessian expm2 2 1 0 exT2 2 (z4 16) 2 [] 1 [] 1 (z4 16) 2 = Ok OH' /\ at4 OH' 2 1 0 1 0 = inject 16.
Proof.
  exists [0; 0; 0; 0; 0; inject 16; 0; 0; 0; 0; 0; 0; 0; - inject 4; 0; 0]%Qc. split; [apply same_list_ok; vm_compute; reflexivity|]. reflexivity.
Qed.
