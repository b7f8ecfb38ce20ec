(* Equality of texts up to the case of the letters A-Z, stated without to_ascii_lowercase, and its relation to the model's `lower`. *)
From Coq Require Import List Bool Arith Lia String Ascii.
From Verif Require Import M_spec.
Import ListNotations.
Set Implicit Arguments.
Open Scope nat_scope.

(* ---------- specification ---------- *)
Definition uppers : list ascii := list_ascii_of_string "ABCDEFGHIJKLMNOPQRSTUVWXYZ".
Definition lowers : list ascii := list_ascii_of_string "abcdefghijklmnopqrstuvwxyz".
(* equal, or the two forms of one letter *)
Definition same_char (a b : ascii) : Prop := a = b \/ In (a, b) (combine uppers lowers) \/ In (b, a) (combine uppers lowers).
Fixpoint same_text (s t : string) : Prop :=
  match s, t with
  | EmptyString, EmptyString => True
  | String a s, String b t => same_char a b /\ same_text s t
  | _, _ => False
  end.

(* ---------- proofs ---------- *)
Definition chars : list ascii := map ascii_of_nat (seq 0 256).
Lemma chars_all a : In a chars.
Proof. unfold chars. apply in_map_iff. exists (nat_of_ascii a). split; [apply ascii_nat_embedding|]. apply in_seq. pose proof (nat_ascii_bounded a). lia. Qed.
Definition pairb (a b : ascii) (l : list (ascii * ascii)) : bool := existsb (fun p => Ascii.eqb (fst p) a && Ascii.eqb (snd p) b) l.
Lemma pairb_ok a b l : pairb a b l = true <-> In (a, b) l.
Proof.
  unfold pairb. rewrite existsb_exists. split.
  - intros ([x y] & H & E). cbn in E. apply andb_true_iff in E as [E1 E2]. apply Ascii.eqb_eq in E1, E2. subst. exact H.
  - intros H. exists (a, b). split; [exact H|]. cbn. rewrite !Ascii.eqb_refl. reflexivity.
Qed.
Definition same_charb (a b : ascii) : bool := Ascii.eqb a b || (pairb a b (combine uppers lowers) || pairb b a (combine uppers lowers)).
Lemma same_charb_ok a b : same_charb a b = true <-> same_char a b.
Proof. unfold same_charb, same_char. rewrite !orb_true_iff, !pairb_ok, Ascii.eqb_eq. tauto. Qed.
Lemma lower_table : forallb (fun a => forallb (fun b => Bool.eqb (same_charb a b) (Ascii.eqb (lower_ascii a) (lower_ascii b))) chars) chars = true.
Proof. vm_compute. reflexivity. Qed.
Lemma lower_char a b : same_char a b <-> lower_ascii a = lower_ascii b.
Proof.
  pose proof lower_table as H. rewrite forallb_forall in H. specialize (H a (chars_all a)). rewrite forallb_forall in H. specialize (H b (chars_all b)).
  apply Bool.eqb_prop in H. rewrite <- same_charb_ok, <- Ascii.eqb_eq, H. tauto.
Qed.
Lemma lower_text : forall s t, same_text s t <-> lower s = lower t.
Proof.
  induction s as [|a s IH]; intros [|b t]; cbn [same_text lower]; try (split; [intros []|discriminate]); [tauto|].
  rewrite lower_char, IH. split; [intros [-> ->]; reflexivity|]. intros E. injection E as E1 E2. split; assumption.
Qed.
