(** Real polynomials of bounded degree, seen as functions, and their roots (used by C61). *)
From Coq Require Import Reals Lra Lia List.
From Coquelicot Require Import Rcomplements Rbar Hierarchy Continuity Derive AutoDerive.
Import ListNotations.
Open Scope R_scope.

Fixpoint isP (d : nat) (p : R -> R) : Prop :=
  match d with
  | O => exists c, forall x, p x = c
  | S d => exists c q, isP d q /\ forall x, p x = c + x * q x
  end.
Lemma isP_ext d p q : (forall x, p x = q x) -> isP d p -> isP d q.
Proof. destruct d; intros E; [intros [c H]; exists c|intros (c & r & H & F); exists c, r; split; [exact H|]]; intros x; now rewrite <- E. Qed.
Lemma isP_const d c : isP d (fun _ => c).
Proof. revert c. induction d as [|d IH]; intros c; [now exists c|]. exists c, (fun _ => 0). split; [apply IH|]. intros x. ring. Qed.
Lemma isP_scale d : forall p c, isP d p -> isP d (fun x => c * p x).
Proof. induction d as [|d IH]; intros p c; [intros [a H]; exists (c * a); intros x; now rewrite H|]. intros (a & q & H & E). exists (c * a), (fun x => c * q x). split; [now apply IH|]. intros x. rewrite E. ring. Qed.
Lemma isP_add d : forall p q, isP d p -> isP d q -> isP d (fun x => p x + q x).
Proof. induction d as [|d IH]; intros p q; [intros [a H] [b G]; exists (a + b); intros x; now rewrite H, G|]. intros (a & p' & H & E) (b & q' & G & F). exists (a + b), (fun x => p' x + q' x). split; [now apply IH|]. intros x. rewrite E, F. ring. Qed.
Lemma isP_sub d p q : isP d p -> isP d q -> isP d (fun x => p x - q x).
Proof. intros H G. apply (isP_ext d (fun x => p x + (-1) * q x)); [intros; ring|]. apply isP_add; [exact H|now apply isP_scale]. Qed.
Lemma isP_S d : forall p, isP d p -> isP (S d) p.
Proof. induction d as [|d IH]; intros p H; [destruct H as [c H]; exists c, (fun _ => 0); split; [now exists 0|intros; rewrite H; ring]|]. destruct H as (c & q & H & E). exists c, q. split; [now apply IH|exact E]. Qed.
Lemma isP_plus k e p : isP e p -> isP (k + e) p.
Proof. intros H. induction k as [|k IH]; [exact H|]. cbn [Nat.add]. now apply isP_S. Qed.
Lemma isP_x d p : isP d p -> isP (S d) (fun x => x * p x).
Proof. intros H. exists 0, p. split; [exact H|]. intros; ring. Qed.
Lemma isP_lin d p a b : isP d p -> isP (S d) (fun x => (a + b * x) * p x).
Proof. intros H. apply (isP_ext _ (fun x => a * p x + b * (x * p x))); [intros; ring|]. apply isP_add; apply isP_scale; [now apply isP_S|now apply isP_x]. Qed.
Lemma isP_mul d e : forall p q, isP d p -> isP e q -> isP (d + e) (fun x => p x * q x).
Proof.
  induction d as [|d IH]; intros p q H G; cbn [Nat.add].
  - destruct H as [c H]. apply (isP_ext e (fun x => c * q x)); [intros; now rewrite H|]. now apply isP_scale.
  - destruct H as (c & p' & H & E). apply (isP_ext _ (fun x => c * q x + x * (p' x * q x))); [intros; rewrite E; ring|]. apply isP_add; [|apply isP_x; now apply IH]. apply isP_scale. apply isP_S. now apply isP_plus.
Qed.
Lemma isP_derive d : forall p, isP (S d) p -> exists p', isP d p' /\ forall x : R, is_derive p x (p' x).
Proof.
  induction d as [|d IH]; intros p (c & q & H & E).
  - destruct H as [a H]. exists (fun _ => a). split; [now exists a|]. intros x. apply (is_derive_ext (fun x => c + x * a)); [intros t; now rewrite E, H|]. auto_derive; [exact I|ring].
  - destruct (IH q H) as (q' & G & D). exists (fun x => q x + x * q' x). split; [apply isP_add; [exact H|now apply isP_x]|]. intros x. apply (is_derive_ext (fun x => c + x * q x)); [intros t; now rewrite E|]. pose proof (D x) as Dx. assert (X : ex_derive (fun x => q x) x) by (exists (q' x); exact Dx). auto_derive; [exact X|]. replace (Derive (fun x => q x) x) with (q' x) by (symmetry; now apply is_derive_unique). ring.
Qed.
Lemma isP_derivable d p (x : R) : isP d p -> ex_derive p x.
Proof. intros H. apply isP_S in H. destruct (isP_derive d p H) as (p' & _ & D). exists (p' x). apply D. Qed.
Lemma isP_div d : forall p r, isP (S d) p -> exists q, isP d q /\ forall x, p x = p r + (x - r) * q x.
Proof.
  induction d as [|d IH]; intros p r (c & q & H & E).
  - destruct H as [a H]. exists (fun _ => a). split; [now exists a|]. intros x. rewrite !E, !H. ring.
  - destruct (IH q r H) as (q2 & G & F). exists (fun x => q r + x * q2 x). split; [now exists (q r), q2|]. intros x. rewrite !E. rewrite (F x) at 1. ring.
Qed.
Lemma isP_root d p r : isP (S d) p -> p r = 0 -> exists q, isP d q /\ forall x, p x = (x - r) * q x.
Proof. intros H Z. destruct (isP_div d p r H) as (q & G & E). exists q. split; [exact G|]. intros x. rewrite E, Z. ring. Qed.
Definition rprod (rs : list R) (f : R -> R) : R := fold_right Rmult 1 (map f rs).
Lemma rprod_cons a l f : rprod (a :: l) f = f a * rprod l f. Proof. reflexivity. Qed.
Lemma rprod_nil f : rprod [] f = 1. Proof. reflexivity. Qed.
Lemma rprod_n0 l f : (forall r, In r l -> f r <> 0) -> rprod l f <> 0.
Proof. induction l as [|a l IH]; intros H; [rewrite rprod_nil; lra|]. rewrite rprod_cons. apply Rmult_integral_contrapositive_currified; [apply H; now left|apply IH; intros r Hr; apply H; now right]. Qed.
Lemma rprod_pos l f : (forall r, In r l -> 0 < f r) -> 0 < rprod l f.
Proof. induction l as [|a l IH]; intros H; [rewrite rprod_nil; lra|]. rewrite rprod_cons. apply Rmult_lt_0_compat; [apply H; now left|apply IH; intros r Hr; apply H; now right]. Qed.
Lemma rprod_ext l f g : (forall r, In r l -> f r = g r) -> rprod l f = rprod l g.
Proof. induction l as [|a l IH]; intros H; [reflexivity|]. rewrite !rprod_cons. rewrite H by now left. rewrite IH; [reflexivity|]. intros r Hr. apply H. now right. Qed.
Lemma rprod_mul l f g : rprod l (fun r => f r * g r) = rprod l f * rprod l g.
Proof. induction l as [|a l IH]; [rewrite !rprod_nil; ring|]. rewrite !rprod_cons, IH. ring. Qed.
Lemma rprod_app a b f : rprod (a ++ b) f = rprod a f * rprod b f.
Proof. induction a as [|x a IH]; [rewrite rprod_nil; cbn [app]; ring|]. cbn [app]. rewrite !rprod_cons, IH. ring. Qed.
Lemma rprod_map {A} (l : list A) (g : A -> R) f : rprod (map g l) f = fold_right Rmult 1 (map (fun a => f (g a)) l).
Proof. unfold rprod. now rewrite map_map. Qed.
Lemma isP_rprod (l : list R) (a b : R -> R) : isP (length l) (fun x => rprod l (fun r => a r + b r * x)).
Proof. induction l as [|r l IH]; [now exists 1|]. cbn [length]. apply (isP_ext _ (fun x => (a r + b r * x) * rprod l (fun r => a r + b r * x))); [reflexivity|]. now apply isP_lin. Qed.

(** distinct simple roots *)
Lemma roots_simple rs : forall e p, NoDup rs -> isP (length rs + e) p -> (forall r, In r rs -> p r = 0) -> exists q, isP e q /\ forall x, p x = rprod rs (fun r => x - r) * q x.
Proof.
  induction rs as [|r rs IH]; intros e p N H Z; cbn [length Nat.add] in H.
  - exists p. split; [exact H|]. intros x. rewrite rprod_nil. ring.
  - destruct (isP_root _ p r H) as (q & G & E); [apply Z; now left|]. inversion N as [|? ? Nr Nrs]; subst. destruct (IH e q Nrs G) as (q' & G' & E').
    { intros s Hs. assert (D : s - r <> 0) by (intros X; apply Nr; replace r with s by lra; exact Hs). specialize (Z s (or_intror Hs)). rewrite E in Z. apply Rmult_integral in Z as [Z|Z]; [contradiction|exact Z]. }
    exists q'. split; [exact G'|]. intros x. rewrite E, E', rprod_cons. ring.
Qed.
(** distinct double roots *)
Definition double (p : R -> R) (r : R) : Prop := p r = 0 /\ is_derive p r 0.
Lemma double_ext p q r : (forall x, p x = q x) -> double p r -> double q r.
Proof. intros E [Z D]. split; [now rewrite <- E|]. now apply (is_derive_ext p). Qed.
(** a factor that does not vanish at r can be removed *)
Lemma double_factor (f p q : R -> R) r : f r <> 0 -> ex_derive f r -> ex_derive q r -> (forall x, p x = f x * q x) -> double p r -> double q r.
Proof.
  intros F Df Dq E [Z D]. rewrite E in Z. apply Rmult_integral in Z as [Z|Z]; [contradiction|]. split; [exact Z|]. assert (X : is_derive p r (Derive f r * q r + f r * Derive q r)). { apply (is_derive_ext (fun x => f x * q x)); [intros; now rewrite E|]. auto_derive; [now split|]. change (Derive (fun x => f x) r) with (Derive f r). change (Derive (fun x => q x) r) with (Derive q r). ring. }
  apply is_derive_unique in D. apply is_derive_unique in X. rewrite D, Z in X. replace 0 with (Derive q r). { now apply Derive_correct. } apply (Rmult_eq_reg_l (f r)); [|exact F]. lra.
Qed.
Lemma roots_double rs : forall e p, NoDup rs -> isP (length rs + length rs + e) p -> (forall r, In r rs -> double p r) -> exists q, isP e q /\ forall x, p x = rprod rs (fun r => (x - r) * (x - r)) * q x.
Proof.
  induction rs as [|r rs IH]; intros e p N H Z; cbn [length Nat.add] in H.
  - exists p. split; [exact H|]. intros x. rewrite rprod_nil. ring.
  - rewrite Nat.add_succ_r in H. cbn [Nat.add] in H. destruct (Z r (or_introl eq_refl)) as [Z0 Z1]. destruct (isP_root _ p r H Z0) as (q & G & E). assert (Q0 : q r = 0). { apply is_derive_unique in Z1. rewrite (Derive_ext p (fun x => (x - r) * q x) r E) in Z1. pose proof (isP_derivable _ q r G) as X. assert (D : is_derive (fun x => (x - r) * q x) r (q r)) by (auto_derive; [exact X|ring]). apply is_derive_unique in D. rewrite <- D. exact Z1. }
    destruct (isP_root _ q r G Q0) as (q2 & G2 & E2). inversion N as [|? ? Nr Nrs]; subst. destruct (IH e q2 Nrs G2) as (q' & G' & E').
    { intros s Hs. assert (D : s - r <> 0) by (intros X; apply Nr; replace r with s by lra; exact Hs). apply (double_factor (fun x => (x - r) * (x - r)) p q2 s); [now apply Rmult_integral_contrapositive_currified|auto_derive; exact I|now apply (isP_derivable _ q2 s G2)|intros x; rewrite E, E2; ring|apply Z; now right]. }
    exists q'. split; [exact G'|]. intros x. rewrite E, E2, E', rprod_cons. ring.
Qed.
