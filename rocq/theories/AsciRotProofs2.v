(** Growth with natural orbitals: fuel, growth without rotation. *)
From Coq Require Import QArith Qcanon Bool.
From Verif Require Import Base SD Spec Sums Ham Nondet Mem Dense DenseSpec Mcscf McscfSpec Asci AsciSpec AsciIter AsciRot AsciRotSpec AsciRotProofs.
Local Open Scope nat_scope.

Lemma nbind_mono {A B} (m : nd A) (f g : A -> nd B) r : (forall a, m (Ok a) -> f a r -> g a r) -> nbind m f r -> nbind m g r.
Proof. intros H [(e & He & ->)|(a & Ha & Hf)]; [left; eauto|right; eauto]. Qed.

Lemma grow_rot_fuel syev W n dbg st rs dg : 2 <= grow_factor st -> forall f f' TV s, 1 <= wfn_size s ->
  ntdets_max st - wfn_size s <= f -> ntdets_max st - wfn_size s <= f' ->
  forall r, asci_grow_rot syev f dbg W n st rs dg TV s r -> asci_grow_rot syev f' dbg W n st rs dg TV s r.
Proof.
  intros Hg. induction f as [|f IH]; intros f' TV [[E0 wfn] X] Hs Hf Hf' r; unfold wfn_size in *; cbn [fst snd] in *.
  - destruct f'; cbn [asci_grow_rot]; destruct (Nat.ltb_spec (length wfn) (ntdets_max st)); auto; lia.
  - destruct f' as [|f'].
    { cbn [asci_grow_rot]. destruct (Nat.ltb_spec (length wfn) (ntdets_max st)); auto; lia. }
    cbn [asci_grow_rot]. destruct (Nat.ltb_spec (length wfn) (ntdets_max st)) as [Hl|Hl]; auto.
    set (k := Nat.min _ _). assert (Hk : length wfn < k) by (unfold k; assert (length wfn * 2 <= length wfn * grow_factor st) by nia; lia).
    apply nbind_mono. intros h _. apply nbind_mono. intros [[E wfn1] X1] _.
    destruct (Nat.ltb_spec (length wfn1) k) as [|Hge]; auto.
    destruct (_ && _).
    + apply nbind_mono. intros [[T V] X2] _. apply IH; cbn [fst snd]; lia.
    + apply IH; cbn [fst snd]; lia.
Qed.

(** the outcome with the arrays of the generator beside it *)
Definition beside {B} (b : B) {A} (r : res A) : res (A * B) := match r with Ok a => Ok (a, b) | Err e => Err e end.
Lemma grow_rot_off syev W n dbg st rs dg : grow_with_rot rs = false -> forall f TV s, n * n <= length (fst TV) -> n * n * (n * n) <= length (snd TV) -> forall r,
  asci_grow_rot syev f dbg W n st rs dg TV s r <-> exists r0, asci_grow f dbg W st (held n TV) (dg (held n TV)) s r0 /\ r = beside TV r0.
Proof.
  intros Ho f TV. induction f as [|f IH]; intros [[E0 wfn] X] R1 R2 r; cbn [asci_grow_rot asci_grow].
  - destruct (_ <? _).
    + split; [intros ->; exists (Err Hang); split; reflexivity|]. intros (r0 & -> & ->). reflexivity.
    + split; [intros ->; eexists; split; reflexivity|]. intros (r0 & -> & ->). reflexivity.
  - destruct (_ <? _).
    2:{ split; [intros ->; eexists; split; reflexivity|]. intros (r0 & -> & ->). reflexivity. }
    destruct TV as [T V]. cbn [fst snd] in *. rewrite (span_held n T V) by (split; assumption). rewrite Ho. cbn [andb].
    set (k := Nat.min _ _). split.
    + intros [(e & He & ->)|(h & Hh & H)]; [discriminate|]. injection Hh as ->.
      destruct H as [(e & He & ->)|([[E wfn1] X1] & H1 & H)].
      * exists (Err e). split; [left; eauto|reflexivity].
      * destruct (length wfn1 <? k) eqn:Ek.
        -- red in H. subst r. exists (Err Throw). split; [|reflexivity]. right. eexists. split; [exact H1|]. cbn [fst snd]. rewrite Ek. reflexivity.
        -- apply IH in H; auto. destruct H as (r0 & H & ->). exists r0. split; [|reflexivity]. right. eexists. split; [exact H1|]. cbn [fst snd]. rewrite Ek. exact H.
    + intros (r0 & H & ->). right. eexists. split; [reflexivity|].
      destruct H as [(e & He & ->)|([[E wfn1] X1] & H1 & H)]; [left; eauto|]. right. eexists. split; [exact H1|]. cbn [fst snd] in H. cbv beta iota zeta.
      destruct (length wfn1 <? k) eqn:Ek; [red in H; subst r0; exact eq_refl|]. apply IH; auto. eauto.
Qed.
