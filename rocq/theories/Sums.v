(** Finite sums of rationals over lists (specification vocabulary). *)
From Coq Require Import QArith Qcanon Sorting.Permutation.
From Verif Require Import Base.
Local Open Scope nat_scope.

Fixpoint sum {A} (l : list A) (f : A -> Qc) : Qc :=
  match l with [] => 0%Qc | a :: r => (f a + sum r f)%Qc end.

Lemma sum_ext {A} (l : list A) f g : (forall a, In a l -> f a = g a) -> sum l f = sum l g.
Proof.
  induction l as [|a l IH]; cbn [sum]; intros H; auto.
  rewrite (H a) by (left; auto). rewrite IH; [reflexivity|]. intros; apply H; right; auto.
Qed.
Lemma sum_zero {A} (l : list A) f : (forall a, In a l -> f a = 0%Qc) -> sum l f = 0%Qc.
Proof.
  induction l as [|a l IH]; cbn [sum]; intros H; auto.
  rewrite (H a) by (left; auto). rewrite IH; [ring|]. intros; apply H; right; auto.
Qed.
Lemma sum_plus {A} (l : list A) f g : sum l (fun a => f a + g a)%Qc = (sum l f + sum l g)%Qc.
Proof. induction l as [|a l IH]; cbn [sum]; [ring|]. rewrite IH. ring. Qed.
Lemma sum_minus {A} (l : list A) f g : sum l (fun a => f a - g a)%Qc = (sum l f - sum l g)%Qc.
Proof. induction l as [|a l IH]; cbn [sum]; [ring|]. rewrite IH. ring. Qed.
Lemma sum_opp {A} (l : list A) f : sum l (fun a => - f a)%Qc = (- sum l f)%Qc.
Proof. induction l as [|a l IH]; cbn [sum]; [ring|]. rewrite IH. ring. Qed.
Lemma sum_scale {A} (l : list A) c f : sum l (fun a => c * f a)%Qc = (c * sum l f)%Qc.
Proof. induction l as [|a l IH]; cbn [sum]; [ring|]. rewrite IH. ring. Qed.
Lemma sum_scale_r {A} (l : list A) c f : sum l (fun a => f a * c)%Qc = (sum l f * c)%Qc.
Proof. induction l as [|a l IH]; cbn [sum]; [ring|]. rewrite IH. ring. Qed.
Lemma sum_app {A} (l m : list A) f : sum (l ++ m) f = (sum l f + sum m f)%Qc.
Proof. induction l as [|a l IH]; cbn [sum app]; [ring|]. rewrite IH. ring. Qed.
Lemma sum_map {A B} (g : A -> B) l f : sum (map g l) f = sum l (fun a => f (g a)).
Proof. induction l as [|a l IH]; cbn [sum map]; auto. rewrite IH. auto. Qed.
Lemma sum_flat_map {A B} (g : A -> list B) l f :
  sum (flat_map g l) f = sum l (fun a => sum (g a) f).
Proof. induction l as [|a l IH]; cbn [sum flat_map]; auto. rewrite sum_app, IH. auto. Qed.
Lemma sum_perm {A} (l m : list A) f : Permutation l m -> sum l f = sum m f.
Proof. induction 1; cbn [sum]; auto; try congruence; ring. Qed.
Lemma sum_swap {A B} (l : list A) (m : list B) f :
  sum l (fun a => sum m (fun b => f a b)) = sum m (fun b => sum l (fun a => f a b)).
Proof.
  induction l as [|a l IH]; cbn [sum].
  - symmetry. apply sum_zero. auto.
  - rewrite IH, sum_plus. auto.
Qed.
Lemma sum_prod {A B} (l : list A) (m : list B) f :
  sum (list_prod l m) f = sum l (fun a => sum m (fun b => f (a, b))).
Proof.
  induction l as [|a l IH]; cbn [sum list_prod]; auto.
  rewrite sum_app, sum_map, IH. auto.
Qed.
Lemma sum_filter {A} (p : A -> bool) l f :
  sum (filter p l) f = sum l (fun a => if p a then f a else 0%Qc).
Proof.
  induction l as [|a l IH]; cbn [sum filter]; auto. destruct (p a); cbn [sum]; rewrite IH; ring.
Qed.

(** a sum only depends on the part of the index list where the term can be
    non-zero *)
Lemma sum_support {A} (l m : list A) f :
  NoDup l -> NoDup m -> (forall a, In a m -> In a l) ->
  (forall a, In a l -> ~ In a m -> f a = 0%Qc) -> sum l f = sum m f.
Proof.
  intros Hl Hm. revert l Hl. induction Hm as [|a m Ha Hm IH]; intros l Hl Hin Hz.
  - apply sum_zero. auto.
  - assert (Hal : In a l) by (apply Hin; left; auto).
    destruct (in_split a l Hal) as (l1 & l2 & E). subst l.
    rewrite (sum_perm (l1 ++ a :: l2) (a :: l1 ++ l2)).
    2:{ symmetry. apply Permutation_middle. }
    cbn [sum]. f_equal. apply IH.
    + apply NoDup_remove_1 in Hl. exact Hl.
    + intros b Hb. assert (In b (l1 ++ a :: l2)) as H by (apply Hin; right; auto).
      apply in_app_or in H. apply in_or_app. destruct H as [H|[H|H]]; auto.
      subst b. contradiction.
    + intros b Hb Nb. apply Hz.
      * apply in_app_or in Hb. apply in_or_app. destruct Hb; auto. right; right; auto.
      * intros [H|H]; auto. subst b. apply NoDup_remove_2 in Hl. contradiction.
Qed.

Lemma sum_single {A} (l : list A) a f :
  NoDup l -> In a l -> (forall b, In b l -> b <> a -> f b = 0%Qc) -> sum l f = f a.
Proof.
  intros Hl Ha Hz. rewrite (sum_support l [a] f); auto.
  - cbn [sum]. ring.
  - constructor; auto. constructor.
  - intros b [<-|[]]. auto.
  - intros b Hb Nb. apply Hz; auto. intros ->. apply Nb. left; auto.
Qed.

Lemma sum_nonneg_le {A} (l : list A) f g : (forall a, In a l -> (f a <= g a)%Qc) ->
  (sum l f <= sum l g)%Qc.
Proof.
  induction l as [|a l IH]; cbn [sum]; intros H; [apply Qcle_refl|].
  apply Qcplus_le_compat; [apply H; left; auto|apply IH; intros; apply H; right; auto].
Qed.

(** one half, and the sign of a phase (true = negative) *)
Definition half : Qc := Q2Qc (1 # 2).
Definition sgn (b : bool) : Qc := if b then (- (1))%Qc else 1%Qc.

Lemma half_half x : (half * x + half * x)%Qc = x.
Proof.
  rewrite <- Qcmult_plus_distr_l. replace (half + half)%Qc with 1%Qc; [ring|].
  apply Qc_is_canon. reflexivity.
Qed.
Lemma sgn_xorb a b : sgn (xorb a b) = (sgn a * sgn b)%Qc.
Proof. destruct a, b; cbn [xorb sgn]; ring. Qed.
Lemma sgn_sq a : (sgn a * sgn a)%Qc = 1%Qc.
Proof. destruct a; cbn [sgn]; ring. Qed.

(** natural numbers as rationals *)
Definition inject (k : nat) : Qc := Q2Qc (inject_Z (Z.of_nat k)).
Lemma inject_plus a b : inject (a + b) = (inject a + inject b)%Qc.
Proof.
  unfold inject. apply Qc_is_canon. cbn [this Qcplus Q2Qc]. rewrite !Qred_correct.
  rewrite Nat2Z.inj_add, inject_Z_plus. reflexivity.
Qed.
Lemma inject_S k : inject (S k) = (1 + inject k)%Qc.
Proof. replace (S k) with (1 + k) by lia. rewrite inject_plus. reflexivity. Qed.
