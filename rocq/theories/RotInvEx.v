(** A rotation of two orbitals by an angle with sine 3/5. *)
From Coq Require Import QArith Qcanon.
From Verif Require Import Base SD Spec FockSpec SlaterCondon Ham Sums Dense DenseSpec DenseEx DiisSpec DavSpec DavEx McscfSpec McscfEx AsciSpec PropsHamGlue FreezeProofs4 RotInvSpec.
Local Open Scope nat_scope.
Lemma okb1 (m : res (list Qc)) a : okb m (fun x => same_list x a) = true -> m = Ok a.
Proof. intros H. apply okb_ok in H. destruct H as (x & E & H). apply same_list_ok in H. rewrite E, H. reflexivity. Qed.
(** the columns are (4/5, -3/5) and (3/5, 4/5) *)
Definition rC : list Qc := [q45; (- q35)%Qc; q35; q45].
Definition rV : list Qc := tab4 2 (fun p q r s => match p, q, r, s with 0, 0, 0, 0 => inject 625 | _, _, _, _ => 0 end)%Qc.
Definition rT1 : list Qc := [(- inject 3)%Qc; 0%Qc; 0%Qc; Q2Qc (Qmake 16 3)].
(** 256, 192, ... : products of four of the numbers 4 and 3 *)
Definition rV1 : list Qc := tab4 2 (fun p q r s => inject ((if p =? 0 then 4 else 3) * (if q =? 0 then 4 else 3) * ((if r =? 0 then 4 else 3) * (if s =? 0 then 4 else 3)))).
Lemma rot_ex : fits2 ex_M 2 2 2 /\ fits4 rV 2 2 /\ fits2 rC 2 2 2 /\ fits2 (repeat 0%Qc 4) 2 2 2 /\ fits4 (repeat 0%Qc 16) 2 2 /\ orthogonal 2 (at2 rC 2) /\
  two_index_transform 2 2 ex_M 2 rC 2 (repeat 0%Qc 4) 2 = Ok rT1 /\ four_index_transform 2 2 rV 2 rC 2 (repeat 0%Qc 16) 2 = Ok rV1 /\ whole_space 64 2 1 0 dets2.
Proof.
  split; [split; cbn; lia|]. split; [split; [lia|]; unfold rV; rewrite tab4_len; cbn; lia|]. split; [split; cbn; lia|]. split; [split; cbn; lia|]. split; [split; [lia|]; rewrite repeat_length; cbn; lia|].
  split; [intros [|[|i]] [|[|j]] Hi Hj; try lia; apply Qc_is_canon; vm_compute; reflexivity|].
  split; [apply okb1; vm_compute; reflexivity|]. split; [apply okb1; vm_compute; reflexivity|]. exact bad_space.
Qed.
(** one electron: -3 is the lower eigenvalue *)
Lemma rot_eigen_ex : eigenvalue 2 (ci_matrix 64 (mk_ints 2 (at2 rT1 2) (at4 rV1 2)) 0%Qc dets2) (- inject 3)%Qc /\
  ci_matrix 64 (mk_ints 2 (at2 ex_M 2) (at4 rV 2)) 0%Qc dets2 0 1 = inject 4.
Proof.
  split; [|rewrite ci_zero; apply Qc_is_canon; vm_compute; reflexivity]. exists [1%Qc; 0%Qc], 0. split; [lia|]. split; [discriminate|].
  intros [|[|i]] Hi; try lia; unfold matvec, Sigma; cbn [seq sum]; rewrite !ci_zero; apply Qc_is_canon; vm_compute; reflexivity.
Qed.
(** a single determinant has the energy 0 in the first orbitals and -3 in the others *)
Lemma rot_selected : exists W no U T V T' V' na nb dets lam, no <= W / 2 /\ rotated no U T V T' V' /\ valid_dets W no na nb dets /\ dets <> [] /\
  eigenvalue (length dets) (ci_matrix W (mk_ints no T' V') 0%Qc dets) lam /\ ~ eigenvalue (length dets) (ci_matrix W (mk_ints no T V) 0%Qc dets) lam.
Proof.
  exists 64, 2, (at2 rC 2), (at2 ex_M 2), (at4 rV 2), (at2 rT1 2), (at4 rV1 2), 1, 0, [1%N], (- inject 3)%Qc.
  split; [cbn; lia|]. split.
  { split; [apply rot_ex|]. split.
    - intros [|[|p]] [|[|q]] Hp Hq; try lia; apply Qc_is_canon; vm_compute; reflexivity.
    - intros [|[|p]] [|[|q]] [|[|r]] [|[|s]] Hp Hq Hr Hs; try lia; apply Qc_is_canon; vm_compute; reflexivity. }
  split. { split; [constructor; [intros []|constructor]|]. intros d [<-|[]]. apply bad_space. left. reflexivity. }
  split; [discriminate|]. split.
  - exists [1%Qc], 0. split; [cbn; lia|]. split; [discriminate|]. cbn [length]. intros [|i] Hi; [|lia]. unfold matvec, Sigma. cbn [seq sum]. rewrite !ci_zero. apply Qc_is_canon. vm_compute. reflexivity.
  - intros (x & k & Hk & Nz & Ev). cbn [length] in *. destruct k; [|lia]. specialize (Ev 0 ltac:(lia)). unfold matvec, Sigma in Ev. cbn [seq sum] in Ev. rewrite ci_zero in Ev. cbn [nth] in Ev.
    match type of Ev with (?m * _ + _)%Qc = _ => replace m with 0%Qc in Ev by (apply Qc_is_canon; vm_compute; reflexivity) end.
    apply Nz. destruct (Qcmult_integral (inject 3) (nth 0 x 0)%Qc) as [E|E]; [|discriminate E|exact E].
    transitivity (- (- inject 3 * nth 0 x 0))%Qc; [ring|]. rewrite <- Ev. ring.
Qed.
