(** Outcomes of calls whose result the C++ standard does not determine (order
    of equal elements in std::sort, std::partition, std::nth_element, random
    pivots, message orders). A call denotes the set of its possible outcomes.
    Nothing here models a function of /repo, only the standard algorithms it
    calls. *)
From Coq Require Import Sorting.Permutation Sorting.Sorted.
From Verif Require Import Base.

(** a set of possible outcomes *)
Definition nd (A : Type) : Type := res A -> Prop.

Definition ret {A} (a : A) : nd A := fun r => r = Ok a.
(** a determinate call *)
Definition det {A} (m : res A) : nd A := fun r => r = m.
(** sequencing: an error ends the call *)
Definition nbind {A B} (m : nd A) (f : A -> nd B) : nd B := fun r =>
  (exists e, m (Err e) /\ r = Err e) \/ (exists a, m (Ok a) /\ f a r).
Notation "'any' x <- m ; k" := (nbind m (fun x => k))
  (at level 200, x pattern, m at level 100, k at level 200).

(** std::sort(first, last, lt) (C++ standard 27.8.2.1): some permutation in
    which no later element is less than an earlier one. boost::sort::pdqsort
    has the same contract. *)
Definition std_sort {A} (lt : A -> A -> bool) (l : list A) : nd (list A) := fun r =>
  exists l', r = Ok l' /\ Permutation l l' /\ StronglySorted (fun x y => lt y x = false) l'.

(** std::partition(first, last, p) (27.7.5): all elements with [p] first, in
    no particular order; the result is the two parts *)
Definition std_partition {A} (p : A -> bool) (l : list A) : nd (list A * list A) := fun r =>
  exists l1 l2, r = Ok (l1, l2) /\ Permutation l (l1 ++ l2) /\
    Forall (fun x => p x = true) l1 /\ Forall (fun x => p x = false) l2.

(** std::nth_element(first, first + k, last, lt) (27.8.3): for every i in
    [first, nth) and j in [nth, last) not lt(j, i), and *nth is what sorting
    would put there; the result is (elements before nth, elements from nth on).
    Requires k <= size. *)
Definition nth_element {A} (lt : A -> A -> bool) (k : nat) (l : list A)
  : nd (list A * list A) := fun r =>
  if k <=? length l then
    exists l1 l2, r = Ok (l1, l2) /\ Permutation l (l1 ++ l2) /\ length l1 = k /\
      (forall x y, In x l1 -> In y l2 -> lt y x = false) /\
      (forall z t, l2 = z :: t -> forall y, In y t -> lt y z = false)
  else r = Err UB.

(** std::unique(first, last, eq): keeps the first of every run of equal
    elements; each element is compared with the last one kept *)
Fixpoint unique_from {A} (eq : A -> A -> bool) (x : A) (l : list A) : list A :=
  match l with
  | [] => []
  | y :: r => if eq x y then unique_from eq x r else y :: unique_from eq y r
  end.
Definition std_unique {A} (eq : A -> A -> bool) (l : list A) : list A :=
  match l with [] => [] | x :: r => x :: unique_from eq x r end.

(** ** specification vocabulary *)

(** [always m P]: the call has an outcome, and every outcome is a normal return
    of a value satisfying [P] *)
Definition always {A} (m : nd A) (P : A -> Prop) : Prop :=
  (exists r, m r) /\ forall r, m r -> exists a, r = Ok a /\ P a.
(** [if_returns m P]: every value the call can return satisfies [P] *)
Definition if_returns {A} (m : nd A) (P : A -> Prop) : Prop := forall a, m (Ok a) -> P a.

(** ** lemmas *)

Lemma always_ret {A} (a : A) (P : A -> Prop) : P a -> always (ret a) P.
Proof. intros H. split; [exists (Ok a); reflexivity|]. intros r ->. eauto. Qed.
Lemma always_det {A} (m : res A) a (P : A -> Prop) : m = Ok a -> P a -> always (det m) P.
Proof. intros E H. split; [exists m; reflexivity|]. intros r ->. eauto. Qed.
Lemma always_bind {A B} (m : nd A) (f : A -> nd B) P Q :
  always m P -> (forall a, P a -> always (f a) Q) -> always (nbind m f) Q.
Proof.
  intros [[r Hr] Hm] Hf. split.
  - destruct (Hm r Hr) as (a & -> & Pa). destruct (Hf a Pa) as [[r' Hr'] _].
    exists r'. right. eauto.
  - intros r' [(e & He & ->)|(a & Ha & Hfa)].
    + destruct (Hm _ He) as (a & E & _). discriminate.
    + destruct (Hm _ Ha) as (a' & E & Pa). injection E as <-. apply (Hf a Pa), Hfa.
Qed.
Lemma always_weaken {A} (m : nd A) (P Q : A -> Prop) :
  (forall a, P a -> Q a) -> always m P -> always m Q.
Proof. intros H [E A']. split; auto. intros r Hr. destruct (A' r Hr) as (a & -> & Pa). eauto. Qed.
Lemma always_returns {A} (m : nd A) P : always m P -> if_returns m P.
Proof. intros [_ H] a Ha. destruct (H _ Ha) as (b & E & Pb). injection E as <-. exact Pb. Qed.

Lemma returns_bind {A B} (m : nd A) (f : A -> nd B) P Q :
  if_returns m P -> (forall a, P a -> if_returns (f a) Q) -> if_returns (nbind m f) Q.
Proof.
  intros Hm Hf b [(e & _ & E)|(a & Ha & Hb)]; [discriminate|]. apply (Hf a); auto.
Qed.
Lemma returns_ret {A} (a : A) (P : A -> Prop) : P a -> if_returns (ret a) P.
Proof. intros H b E. injection E as ->. exact H. Qed.
Lemma returns_det {A} (m : res A) (P : A -> Prop) : (forall a, m = Ok a -> P a) -> if_returns (det m) P.
Proof. intros H b E. apply H. symmetry. exact E. Qed.
Lemma returns_weaken {A} (m : nd A) (P Q : A -> Prop) :
  (forall a, P a -> Q a) -> if_returns m P -> if_returns m Q.
Proof. intros H K a Ha. apply H, K, Ha. Qed.
Lemma returns_true {A} (m : nd A) : if_returns m (fun _ => True).
Proof. intros a _. exact I. Qed.

Section SORT.
  Context {A : Type} (lt : A -> A -> bool).
  Hypothesis asym : forall x y, lt x y = true -> lt y x = false.
  Hypothesis ntrans : forall x y z, lt y x = false -> lt z y = false -> lt z x = false.

  Fixpoint ins (x : A) (l : list A) : list A :=
    match l with [] => [x] | y :: r => if lt y x then y :: ins x r else x :: l end.
  Lemma ins_perm x l : Permutation (x :: l) (ins x l).
  Proof.
    induction l as [|y r IH]; cbn [ins]; auto. destruct (lt y x); auto.
    rewrite perm_swap. constructor. exact IH.
  Qed.
  Notation le := (fun x y => lt y x = false).
  Lemma ins_sorted x l : StronglySorted le l -> StronglySorted le (ins x l).
  Proof.
    induction 1 as [|y r Hr IH Hy]; cbn [ins].
    - constructor; constructor.
    - destruct (lt y x) eqn:E.
      + constructor; auto. apply (Permutation_Forall (ins_perm x r)). constructor; auto.
      + constructor; [constructor; auto|]. constructor; auto.
        rewrite Forall_forall in *. intros z Hz. apply (ntrans x y z); auto.
  Qed.
  Lemma sort_exists l : exists l', Permutation l l' /\ StronglySorted le l'.
  Proof.
    induction l as [|x l (l' & P & Q)].
    - exists []. split; auto. constructor.
    - exists (ins x l'). split; [rewrite P; apply ins_perm|apply ins_sorted, Q].
  Qed.
  Lemma std_sort_always l : always (std_sort lt l) (fun l' => Permutation l l' /\ StronglySorted le l').
  Proof.
    split.
    - destruct (sort_exists l) as (l' & P & Q). exists (Ok l'), l'. auto.
    - intros r (l' & -> & P & Q). eauto.
  Qed.

  Lemma nth_element_always k l : k <= length l ->
    always (nth_element lt k l) (fun ab => Permutation l (fst ab ++ snd ab) /\ length (fst ab) = k /\
      forall x y, In x (fst ab) -> In y (snd ab) -> lt y x = false).
  Proof.
    intros Hk. unfold nth_element. apply Nat.leb_le in Hk. rewrite Hk. apply Nat.leb_le in Hk. split.
    - destruct (sort_exists l) as (l' & P & Q). exists (Ok (firstn k l', skipn k l')).
      exists (firstn k l'), (skipn k l'). split; [reflexivity|]. rewrite firstn_skipn. split; auto.
      split; [rewrite firstn_length, <- (Permutation_length P); lia|].
      rewrite <- (firstn_skipn k l') in Q. split.
      + intros x y Hx Hy. clear P. induction (firstn k l') as [|u t IH]; [destruct Hx|].
        cbn [app] in Q. inversion Q as [|? ? Q1 Q2]; subst. destruct Hx as [<-|Hx]; auto.
        rewrite Forall_forall in Q2. apply Q2. apply in_or_app. auto.
      + intros z t E y Hy. clear P. rewrite E in Q. induction (firstn k l') as [|u t' IH]; cbn [app] in Q.
        * inversion Q as [|? ? Q1 Q2]; subst. rewrite Forall_forall in Q2. auto.
        * inversion Q; subst. auto.
    - intros r (l1 & l2 & -> & P & L & X & _). exists (l1, l2). auto.
  Qed.
End SORT.

Lemma std_partition_always {A} (p : A -> bool) l :
  always (std_partition p l) (fun pr => Permutation (filter p l) (fst pr) /\
    Permutation (filter (fun x => negb (p x)) l) (snd pr)).
Proof.
  assert (F : forall l, Permutation l (filter p l ++ filter (fun x => negb (p x)) l)).
  { induction l0 as [|x r IH]; auto. cbn [filter]. destruct (p x); cbn [negb app].
    - constructor; auto.
    - rewrite IH at 1. apply Permutation_middle. }
  split.
  - exists (Ok (filter p l, filter (fun x => negb (p x)) l)). do 2 eexists. split; [reflexivity|].
    split; [apply F|]. split; apply Forall_forall; intros x Hx; apply filter_In in Hx; destruct Hx; auto.
    destruct (p x); auto; discriminate.
  - intros r (l1 & l2 & -> & P & F1 & F2). exists (l1, l2). split; auto. cbn [fst snd].
    assert (X : forall q, Permutation (filter q l) (filter q l1 ++ filter q l2)).
    { intros q. rewrite <- filter_app. clear -P. induction P; cbn [filter]; auto.
      - destruct (q x); auto.
      - destruct (q x), (q y); auto. apply perm_swap.
      - etransitivity; eauto. }
    rewrite Forall_forall in F1, F2.
    assert (I1 : forall q (m : list A), (forall x, In x m -> q x = true) -> filter q m = m).
    { induction m as [|x m IH]; cbn [filter]; intros H; auto. rewrite H by (left; auto).
      rewrite IH; auto. intros; apply H; right; auto. }
    assert (I0 : forall q (m : list A), (forall x, In x m -> q x = false) -> filter q m = []).
    { induction m as [|x m IH]; cbn [filter]; intros H; auto. rewrite H by (left; auto).
      apply IH; auto. intros; apply H; right; auto. }
    split; rewrite X.
    + rewrite (I1 p l1), (I0 p l2), app_nil_r; auto.
    + rewrite (I0 _ l1), (I1 _ l2); auto; intros x Hx; [rewrite F2|rewrite F1]; auto.
Qed.
