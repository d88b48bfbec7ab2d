(** How many rules the parser tries: the number of match attempts of PEGTL, counting every combinator once. *)
From Verif Require Export ParserModel.
Local Open Scope list_scope.

Section Cost.
Variable sel : rule -> keeps.
Notation M := (matches grammar sel).

(** [tries r o s k]: trying [r] at [s] makes [k] attempts in all, its own included. What is tried after what is as in
    Peg.run: the second part of a sequence only after the first, an alternative only after the one before it has failed. *)
Inductive tries : ex -> nat -> list ascii -> nat -> Prop :=
| t_eps o s : tries Eps o s 1
| t_chr p o s : tries (Chr p) o s 1
| t_str l o s : tries (Str l) o s 1
| t_utf8 a b o s : tries (Utf8 a b) o s 1
| t_eof o s : tries Eof o s 1
| t_bof o s : tries Bof o s 1
| t_seq a b o s ns o' s' j k : M a o s (Match ns o' s') -> tries a o s j -> tries b o' s' k -> tries (Seq a b) o s (S (j + k))
| t_seq_stop a b o s j : (forall ns o' s', ~ M a o s (Match ns o' s')) -> tries a o s j -> tries (Seq a b) o s (S j)
| t_sor a b o s j k : M a o s Fail -> tries a o s j -> tries b o s k -> tries (Sor a b) o s (S (j + k))
| t_sor_stop a b o s j : ~ M a o s Fail -> tries a o s j -> tries (Sor a b) o s (S j)
| t_star a o s ns o' s' j k : M a o s (Match ns o' s') -> tries a o s j -> tries (Star a) o' s' k -> tries (Star a) o s (S (j + k))
| t_star_stop a o s j : (forall ns o' s', ~ M a o s (Match ns o' s')) -> tries a o s j -> tries (Star a) o s (S j)
| t_not a o s j : tries a o s j -> tries (NotAt a) o s (S j)
| t_must m a o s j : tries a o s j -> tries (Must m a) o s (S j)
| t_ref n o s j : tries (grammar n) o s j -> tries (Ref n) o s (S j).

Lemma not_matched (a : ex) o s x : M a o s x -> (forall ns o' s', x <> Match ns o' s') -> forall ns o' s', ~ M a o s (Match ns o' s').
Proof. intros H N ns o' s' X. apply (N ns o' s'). eapply matches_det; eassumption. Qed.
Lemma not_failed (a : ex) o s x : M a o s x -> x <> Fail -> ~ M a o s Fail.
Proof. intros H N X. apply N. eapply matches_det; eassumption. Qed.

(** Every attempt that ends has a number of attempts, and only one. *)
Lemma tries_exists r o s x : M r o s x -> exists k, tries r o s k.
Proof.
  induction 1 as
    [ o s | p o c s E | p o c s E | p o | l o s s' E | l o s E | lo hi o s n E | lo hi o s E | o | o c s | s | o s E
    | a b o s ns o' s' x Ha [j A] Hb [k B] | a b o s Ha [j A] | a b o s m Ha [j A]
    | a b o s ns o' s' Ha [j A] | a b o s x Ha [j A] Hb [k B] | a b o s m Ha [j A]
    | a o s Ha [j A] | a o s ns o' s' x Ha [j A] Hb [k B] | a o s m Ha [j A]
    | a o s Ha [j A] | a o s ns o' s' Ha [j A] | a o s m Ha [j A]
    | a msg o s ns o' s' Ha [j A] | a msg o s Ha [j A] | a msg o s m Ha [j A]
    | n o s ns o' s' Ha [j A] | n o s Ha [j A] | n o s m Ha [j A] ]; try (eexists; constructor; eassumption).
  - exists (S (j + k)). econstructor; eassumption.
  - exists (S j). apply t_seq_stop; [eapply not_matched; [exact Ha|discriminate]|exact A].
  - exists (S j). apply t_seq_stop; [eapply not_matched; [exact Ha|discriminate]|exact A].
  - exists (S j). apply t_sor_stop; [eapply not_failed; [exact Ha|discriminate]|exact A].
  - exists (S j). apply t_sor_stop; [eapply not_failed; [exact Ha|discriminate]|exact A].
  - exists (S j). apply t_star_stop; [eapply not_matched; [exact Ha|discriminate]|exact A].
  - exists (S (j + k)). econstructor; eassumption.
  - exists (S j). apply t_star_stop; [eapply not_matched; [exact Ha|discriminate]|exact A].
Qed.

Lemma tries_det r o s j : tries r o s j -> forall k, tries r o s k -> j = k.
Proof.
  induction 1 as [o s|p o s|l o s|a b o s|o s|o s|a b o s ns o' s' j k Ha A IHA B IHB|a b o s j N A IHA|a b o s j k Ha A IHA B IHB|a b o s j N A IHA
    |a o s ns o' s' j k Ha A IHA B IHB|a o s j N A IHA|a o s j A IHA|m a o s j A IHA|n o s j A IHA]; intros q Q.
  1-6: inversion Q; reflexivity.
  - inversion Q as [| | | | | |a' b' o1 s1 ns1 o2 s2 j1 k1 Ha1 A1 B1|a' b' o1 s1 j1 N1 A1| | | | | | |]; subst.
    + pose proof (matches_det _ _ _ _ _ _ _ Ha Ha1) as [= -> -> ->]. f_equal. f_equal; auto.
    + exfalso. eapply N1. exact Ha.
  - inversion Q as [| | | | | |a' b' o1 s1 ns1 o2 s2 j1 k1 Ha1 A1 B1|a' b' o1 s1 j1 N1 A1| | | | | | |]; subst.
    + exfalso. eapply N. exact Ha1.
    + f_equal; auto.
  - inversion Q as [| | | | | | | |a' b' o1 s1 j1 k1 Ha1 A1 B1|a' b' o1 s1 j1 N1 A1| | | | |]; subst.
    + f_equal. f_equal; auto.
    + contradiction.
  - inversion Q as [| | | | | | | |a' b' o1 s1 j1 k1 Ha1 A1 B1|a' b' o1 s1 j1 N1 A1| | | | |]; subst.
    + contradiction.
    + f_equal; auto.
  - inversion Q as [| | | | | | | | | |a' o1 s1 ns1 o2 s2 j1 k1 Ha1 A1 B1|a' o1 s1 j1 N1 A1| | |]; subst.
    + pose proof (matches_det _ _ _ _ _ _ _ Ha Ha1) as [= -> -> ->]. f_equal. f_equal; auto.
    + exfalso. eapply N1. exact Ha.
  - inversion Q as [| | | | | | | | | |a' o1 s1 ns1 o2 s2 j1 k1 Ha1 A1 B1|a' o1 s1 j1 N1 A1| | |]; subst.
    + exfalso. eapply N. exact Ha1.
    + f_equal; auto.
  - inversion Q; subst. f_equal; auto.
  - inversion Q; subst. f_equal; auto.
  - inversion Q; subst. f_equal; auto.
Qed.

(** What is tried first is part of the count. *)
Lemma tries_first_seq a b o s k : tries (Seq a b) o s k -> exists j, tries a o s j /\ j < k.
Proof. intro H. inversion H; subst; eexists; (split; [eassumption|lia]). Qed.
Lemma tries_then a b o s k ns o' s' : tries (Seq a b) o s k -> M a o s (Match ns o' s') -> exists j, tries b o' s' j /\ j < k.
Proof.
  intros H E. inversion H as [| | | | | |a' b' o1 s1 ns1 o2 s2 j1 k1 Ha1 A1 B1|a' b' o1 s1 j1 N1 A1| | | | | | |]; subst.
  - pose proof (matches_det _ _ _ _ _ _ _ E Ha1) as [= -> -> ->]. exists k1. split; [exact B1|lia].
  - exfalso. eapply N1. exact E.
Qed.
Lemma tries_first_sor a b o s k : tries (Sor a b) o s k -> exists j, tries a o s j /\ j < k.
Proof. intro H. inversion H; subst; eexists; (split; [eassumption|lia]). Qed.
Lemma tries_both a b o s k : tries (Sor a b) o s k -> M a o s Fail -> exists i j, tries a o s i /\ tries b o s j /\ i + j < k.
Proof.
  intros H E. inversion H as [| | | | | | | |a' b' o1 s1 j1 k1 Ha1 A1 B1|a' b' o1 s1 j1 N1 A1| | | | |]; subst; [|contradiction].
  exists j1, k1. split; [exact A1|]. split; [exact B1|lia].
Qed.
End Cost.
