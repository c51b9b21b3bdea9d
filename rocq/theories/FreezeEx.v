(** Concrete arrays used beside the theorems of Props_Freeze.v: three orbitals, the lowest frozen. *)
From Coq Require Import QArith Qcanon.
From Verif Require Import Base SD Spec Sums FockSpec SlaterCondon Ham HamProofs PropsHamGlue DenseSpec Dense DenseProofs FockMatProofs DenseGlue DenseEx DiisSpec Nondet Davidson DavSpec DavEx Mcscf McscfSpec CasciSpec McscfEx
  FreezeSpec FreezeProofs2.
Local Open Scope nat_scope.

Definition frT : list Qc := tab2 3 3 (fun p q => match p, q with
  | 0, 0 => inject 5 | 0, _ => 1 | _, 0 => 1 | 1, 1 => - inject 4 | 2, 2 => q73 | _, _ => inject 4 end)%Qc.
Definition frV : list Qc := tab4 3 (fun p q r s => match p, q, r, s with
  | 0, 0, 0, 0 => inject 7 | 0, 0, 1, 1 => inject 2 | 1, 1, 0, 0 => inject 2 | _, _, _, _ => 0 end)%Qc.
Lemma fr_fits : fits2 frT 3 3 3 /\ fits4 frV 3 3 /\ fits2 (repeat 0%Qc 9) 3 3 3.
Proof.
  split; [apply fits2_lenge; auto; rewrite tab2_len; auto|]. split; [apply fits4_lenge; auto; rewrite tab4_len; auto|]. apply fits2_lenge; auto.
Qed.
Definition frF : list Qc := tab2 3 3 (fun p q => match p, q with
  | 0, 0 => inject 12 | 0, _ => 1 | _, 0 => 1 | 1, 1 => 0 | 2, 2 => q73 | _, _ => inject 4 end)%Qc.
Lemma fr_sym : symmetric2 3 (at2 frT 3) /\ eightfold 3 (at4 frV 3).
Proof.
  split.
  - intros p q Hp Hq. apply qcb. revert q Hq. apply allb_ok. revert p Hp. apply (allb_ok 3 (fun p => allb 3 (fun q => Qc_eq_bool (at2 frT 3 p q) (at2 frT 3 q p)))).
    vm_compute. reflexivity.
  - intros p q r s Hp Hq Hr Hs.
    assert (H : allb 3 (fun p => allb 3 (fun q => allb 3 (fun r => allb 3 (fun s => Qc_eq_bool (at4 frV 3 p q r s) (at4 frV 3 r s p q) && Qc_eq_bool (at4 frV 3 p q r s) (at4 frV 3 q p r s)))))%bool = true) by (vm_compute; reflexivity).
    pose proof (allb_ok _ _ (allb_ok _ _ (allb_ok _ _ (allb_ok _ _ H p Hp) q Hq) r Hr) s Hs) as K. cbv beta in K. apply andb_prop in K. destruct K as [K1 K2].
    split; apply qcb; auto.
Qed.
Lemma okb3 (m : res (list Qc * list Qc * list Qc)) a b c : okb m (fun x => same_list (fst (fst x)) a && same_list (snd (fst x)) b && same_list (snd x) c)%bool = true -> m = Ok (a, b, c).
Proof.
  intros H. apply okb_ok in H. destruct H as (((x & y) & z) & -> & H). cbn [fst snd] in H. apply andb_prop in H. destruct H as [H H3]. apply andb_prop in H. destruct H as [H1 H2].
  apply same_list_ok in H1, H2, H3. subst. reflexivity.
Qed.
Lemma fr_active : active_hamiltonian 3 2 1 frT 3 frV 3 (repeat 0%Qc 9) 3 (repeat 0%Qc 4) 2 (repeat 0%Qc 16) 2 = Ok (frF, ex_M, exA2).
Proof. apply okb3. vm_compute. reflexivity. Qed.
Lemma fr_inactive : inactive_energy 1 frT 3 frF 3 = Ok (inject 17).
Proof.
  assert (K : okb (inactive_energy 1 frT 3 frF 3) (fun x => Qc_eq_bool x (inject 17)) = true) by (vm_compute; reflexivity).
  apply okb_ok in K. destruct K as (x & -> & K). apply qcb in K. rewrite K. reflexivity.
Qed.
