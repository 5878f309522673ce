(** Proofs about the .dfg file format. *)
From Coq Require DecimalZ.
From Coq Require Import DecimalString Decimal.
From Coq Require Import String Ascii List Arith ZArith Bool Lia Permutation.
Import ListNotations.
From Verif Require Import Model_Tree Model_Parse Proofs_Parse Model_Dict Proofs_Dict Model_DfgFile.
Local Open Scope list_scope.

(** ** Numbers *)
Definition num_char (c : ascii) : Prop := c = "-"%char \/ (48 <= nat_of_ascii c /\ nat_of_ascii c <= 57).
Lemma uint_chars u : Forall num_char (list_ascii_of_string (NilEmpty.string_of_uint u)).
Proof.
  induction u; cbn; constructor; auto; right; cbn; lia.
Qed.
Lemma int_chars z : Forall num_char (print_int z) /\ print_int z <> [].
Proof.
  unfold print_int. destruct (Z.to_int z) as [u|u]; cbn -[NilZero.string_of_uint].
  - destruct u; split; try discriminate; try (apply (uint_chars (D0 u))); try apply (uint_chars (D1 u)); try apply (uint_chars (D2 u));
      try apply (uint_chars (D3 u)); try apply (uint_chars (D4 u)); try apply (uint_chars (D5 u)); try apply (uint_chars (D6 u));
      try apply (uint_chars (D7 u)); try apply (uint_chars (D8 u)); try apply (uint_chars (D9 u)).
    cbn. repeat constructor; right; cbn; lia.
  - split; [|discriminate]. constructor; [left; reflexivity|]. destruct u; try apply (uint_chars (D0 u)); try apply (uint_chars (D1 u)); try apply (uint_chars (D2 u));
      try apply (uint_chars (D3 u)); try apply (uint_chars (D4 u)); try apply (uint_chars (D5 u)); try apply (uint_chars (D6 u));
      try apply (uint_chars (D7 u)); try apply (uint_chars (D8 u)); try apply (uint_chars (D9 u)).
    cbn. repeat constructor; right; cbn; lia.
Qed.
Lemma num_not c : num_char c -> is_space c = false /\ Ascii.eqb c c_x = false /\ Ascii.eqb c c_gt = false /\ Ascii.eqb c c_nl = false /\ Ascii.eqb c c_cr = false.
Proof.
  intros [->|(H1 & H2)]; [repeat split; reflexivity|].
  assert (Hn : forall d, nat_of_ascii d < 48 \/ 57 < nat_of_ascii d -> Ascii.eqb c d = false).
  { intros d Hd. destruct (Ascii.eqb_spec c d) as [->|]; [lia|reflexivity]. }
  split; [|repeat split; apply Hn; cbn; lia].
  unfold is_space.
  repeat match goal with |- context [Nat.leb ?a ?b] => destruct (Nat.leb_spec a b) end;
  repeat match goal with |- context [Nat.eqb ?a ?b] => destruct (Nat.eqb_spec a b) end; cbn; try reflexivity; lia.
Qed.
Lemma strip_num s : s <> [] -> Forall num_char s -> strip s = s.
Proof.
  intros Hn Hf. destruct s as [|c s]; [congruence|]. inversion Hf; subst. apply strip_cons; [|apply num_not; assumption].
  right. destruct (@exists_last _ (c :: s) ltac:(discriminate)) as (l & d & E). exists l, d. split; [exact E|].
  rewrite E in Hf. apply Forall_app in Hf as [_ Hf]. inversion Hf; subst. apply num_not; assumption.
Qed.
Lemma to_int_not z : Z.to_int z <> Pos Nil /\ Z.to_int z <> Neg Nil.
Proof.
  split; intros E; pose proof (DecimalZ.of_to z) as H; rewrite E in H; cbn in H; subst z; cbn in E; discriminate.
Qed.
Lemma read_print z : read_int (print_int z) = Some z.
Proof.
  unfold read_int. rewrite strip_num; [|apply int_chars|apply int_chars]. unfold print_int.
  rewrite string_of_list_ascii_of_string, NilZero.isi; [|apply to_int_not|apply to_int_not]. cbn. now rewrite DecimalZ.of_to.
Qed.
(** with an end of line *)
Lemma rstrip_nl s : List.rev (lstrip (List.rev (s ++ [c_nl]))) = List.rev (lstrip (List.rev s)).
Proof. now rewrite rev_app_distr. Qed.
Lemma lstrip_app s r : (exists c, In c s /\ is_space c = false) -> lstrip (s ++ r) = lstrip s ++ r.
Proof.
  induction s as [|c s IH]; intros (d & Hd & Es); [easy|]. cbn. destruct (is_space c) eqn:E; [|reflexivity].
  apply IH. exists d. destruct Hd as [->|Hd]; [congruence|auto].
Qed.
Lemma lstrip_all s : (forall c, In c s -> is_space c = true) -> lstrip s = [].
Proof. induction s as [|c s IH]; intros H; cbn; [reflexivity|]. rewrite H by now left. apply IH. intros. apply H. now right. Qed.
Lemma strip_nl s : strip (s ++ [c_nl]) = strip s.
Proof.
  unfold strip. destruct (existsb (fun c => negb (is_space c)) s) eqn:E.
  - apply existsb_exists in E as (c & Hc & Ec). rewrite lstrip_app by (exists c; split; [exact Hc|now destruct (is_space c)]). apply rstrip_nl.
  - assert (H : forall c, In c s -> is_space c = true).
    { intros c Hc. destruct (is_space c) eqn:Es; [reflexivity|]. enough (existsb (fun c => negb (is_space c)) s = true) by congruence.
      apply existsb_exists. exists c. rewrite Es. auto. }
    rewrite (lstrip_all s H), (lstrip_all (s ++ [c_nl])); [reflexivity|]. intros c Hc. apply in_app_or in Hc as [Hc|[<-|[]]]; [auto|reflexivity].
Qed.
Lemma read_print_nl z : read_int (print_int z ++ [c_nl]) = Some z.
Proof. unfold read_int. rewrite strip_nl. apply read_print. Qed.

(** ** Splitting *)
Lemma split_none c s : (forall d, In d s -> Ascii.eqb d c = false) -> split_on c s = [s].
Proof.
  induction s as [|d s IH]; intros H; cbn; [reflexivity|]. rewrite (H d) by now left. rewrite IH; [reflexivity|]. intros. apply H. now right.
Qed.
Lemma split_one c s r : (forall d, In d s -> Ascii.eqb d c = false) -> split_on c (s ++ c :: r) = s :: split_on c r.
Proof.
  induction s as [|d s IH]; intros H; cbn; [now rewrite Ascii.eqb_refl|]. rewrite (H d) by now left.
  rewrite IH; [reflexivity|]. intros. apply H. now right.
Qed.
Lemma num_no_x z d : In d (print_int z) -> Ascii.eqb d c_x = false.
Proof. intros H. destruct (int_chars z) as [Hf _]. rewrite Forall_forall in Hf. apply (num_not d (Hf d H)). Qed.
Lemma num_no_gt z d : In d (print_int z) -> Ascii.eqb d c_gt = false.
Proof. intros H. destruct (int_chars z) as [Hf _]. rewrite Forall_forall in Hf. apply (num_not d (Hf d H)). Qed.

(** ** Indices *)
Lemma index_some {A} {KA : Key A} (l : list A) x : In x l -> exists i, index_of l x = Some i /\ nth_error l i = Some x.
Proof.
  induction l as [|y l IH]; [easy|]. cbn. intros H. destruct (keqb_spec y x) as [E|Hn]; [exists 0; subst; auto|].
  destruct H as [H|H]; [congruence|]. destruct (IH H) as (i & -> & Hi). now exists (S i).
Qed.
Lemma index_in {A} {KA : Key A} (l : list A) x i : index_of l x = Some i -> In x l.
Proof.
  revert i. induction l as [|y l IH]; cbn; intros i H; [discriminate|]. destruct (keqb_spec y x) as [E|Hn]; [now left|].
  destruct (index_of l x); [|discriminate]. right. eapply IH. reflexivity.
Qed.
Lemma at_index_nat {A} (l : list A) i : at_index l (Z.of_nat i) = nth_error l i.
Proof. unfold at_index. destruct (Z.ltb_spec (Z.of_nat i) 0); [lia|]. now rewrite Nat2Z.id. Qed.

(** ** Dictionaries *)
Lemma d_set_new {K V} {EK : Key K} (d : dict K V) k v : ~ In k (d_keys d) -> d_set d k v = d ++ [(k, v)].
Proof.
  induction d as [|[k' v'] d IH]; cbn; intros H; [reflexivity|]. destruct (keqb_spec k' k) as [->|]; [tauto|]. rewrite IH; tauto.
Qed.
Lemma assign_nodup {K V} {EK : Key K} (l : list (K * V)) : NoDup (d_keys l) -> assign l = l.
Proof.
  unfold assign. enough (G : forall (l d : list (K * V)), NoDup (d_keys (d ++ l)) -> fold_left (fun d kv => d_set d (fst kv) (snd kv)) l d = d ++ l)
    by (intros H; rewrite (G l []); auto).
  clear l. induction l as [|[k v] r IH]; intros d H; cbn; [symmetry; apply app_nil_r|].
  rewrite d_set_new.
  - rewrite IH; [now rewrite <- app_assoc|]. now rewrite <- app_assoc.
  - unfold d_keys in *. rewrite map_app in H. cbn in H. apply NoDup_remove_2 in H. intros Hk. apply H, in_or_app. now left.
Qed.

(** ** Lines *)
(** A line: no line break except at the end. *)
Definition line (s : text) : Prop := exists r, s = r ++ [c_nl] /\ (forall c, In c r -> Ascii.eqb c c_nl = false).
Lemma readlines_line s rest : line s -> readlines (s ++ rest) = s :: readlines rest.
Proof.
  intros (r & -> & H). rewrite <- app_assoc. cbn. induction r as [|c r IH]; [reflexivity|]. cbn [readlines app].
  rewrite (H c) by now left. rewrite IH; [reflexivity|]. intros. apply H. now right.
Qed.
Lemma readlines_concat ls : Forall line ls -> readlines (concat ls) = ls.
Proof. induction 1; [reflexivity|]. cbn. rewrite readlines_line by assumption. now f_equal. Qed.
Lemma universal_id s : (forall c, In c s -> Ascii.eqb c c_cr = false) -> universal s = s.
Proof. induction s as [|c s IH]; intros H; cbn [universal]; [reflexivity|]. rewrite (H c) by now left. f_equal. apply IH. intros. apply H. now right. Qed.

Lemma take_rows_app ls rest : take_rows (length ls) (ls ++ rest) = Some (ls, rest).
Proof. induction ls as [|l ls IH]; [reflexivity|]. cbn. now rewrite IH. Qed.
Lemma read_count_print n rest : read_count ((print_int (Z.of_nat n) ++ [c_nl]) :: rest) = Some (n, rest).
Proof. unfold read_count. rewrite read_print_nl. cbn. now rewrite Nat2Z.id. Qed.

Lemma map_opt_map {X Y Z} (f : X -> option Y) (g : Y -> option Z) (h : X -> Z) l ys :
  (forall x y, In x l -> f x = Some y -> g y = Some (h x)) -> map_opt f l = Some ys -> map_opt g ys = Some (map h l).
Proof.
  revert ys. induction l as [|x l IH]; intros ys H; cbn; [intros [= <-]; reflexivity|].
  destruct (f x) as [y|] eqn:E; [|discriminate]. destruct (map_opt f l) as [ys'|]; [|discriminate]. intros [= <-]. cbn.
  rewrite (H x y) by auto with datatypes. rewrite (IH ys'); [reflexivity| |reflexivity]. intros. apply H; auto. now right.
Qed.
Lemma map_opt_length {X Y} (f : X -> option Y) l ys : map_opt f l = Some ys -> length ys = length l.
Proof.
  revert ys. induction l as [|x l IH]; intros ys; cbn; [intros [= <-]; reflexivity|].
  destruct (f x); [|discriminate]. destruct (map_opt f l); [|discriminate]. intros [= <-]. cbn. f_equal. auto.
Qed.
Lemma map_opt_forall {X Y} (f : X -> option Y) (P : Y -> Prop) l ys :
  (forall x y, In x l -> f x = Some y -> P y) -> map_opt f l = Some ys -> Forall P ys.
Proof.
  revert ys. induction l as [|x l IH]; intros ys H; cbn; [intros [= <-]; constructor|].
  destruct (f x) as [y|] eqn:E; [|discriminate]. destruct (map_opt f l) as [ys'|]; [|discriminate]. intros [= <-].
  constructor; [eapply H; [now left|exact E]|]. apply IH; [|reflexivity]. intros. eapply H; [right|]; eassumption.
Qed.
Lemma map_opt_some {X Y} (f : X -> option Y) l ys x : map_opt f l = Some ys -> In x l -> exists y, f x = Some y.
Proof.
  revert ys. induction l as [|z l IH]; intros ys; cbn; [easy|].
  destruct (f z) as [y|] eqn:E; [|discriminate]. destruct (map_opt f l) as [ys'|]; [|discriminate]. intros _ [<-|H]; eauto.
Qed.
Lemma map_opt_total' {X Y} (f : X -> option Y) l : (forall x, In x l -> exists y, f x = Some y) -> exists ys, map_opt f l = Some ys.
Proof.
  induction l as [|x l IH]; intros H; cbn; [eauto|]. destruct (H x) as (y & ->); [now left|].
  destruct IH as (ys & ->); [intros; apply H; now right|]. eauto.
Qed.

(** ** Rows *)
Lemma strip_row s t z : s <> [] -> Forall num_char s -> strip (s ++ t :: print_int z ++ [c_nl]) = s ++ t :: print_int z.
Proof.
  intros Hn Hf.
  replace (s ++ t :: print_int z ++ [c_nl]) with ((s ++ t :: print_int z) ++ [c_nl]) by (rewrite <- app_assoc; reflexivity).
  rewrite strip_nl. destruct s as [|c s]; [congruence|]. inversion Hf; subst. apply strip_cons; [|apply num_not; assumption].
  right. destruct (int_chars z) as [Hz Hz0]. destruct (@exists_last _ _ Hz0) as (l & d & E). exists ((c :: s) ++ t :: l), d. split.
  - rewrite E. rewrite <- app_assoc. reflexivity.
  - rewrite E in Hz. apply Forall_app in Hz as [_ Hz]. inversion Hz; subst. apply num_not; assumption.
Qed.
Lemma read_act_row acts i a z : nth_error acts i = Some a ->
  read_act acts (print_int (Z.of_nat i) ++ [c_x] ++ print_int z ++ [c_nl]) = Some (a, z).
Proof.
  intros H. unfold read_act. cbn [app]. rewrite strip_row by apply int_chars.
  rewrite split_one by apply num_no_x. rewrite split_none by apply num_no_x. rewrite !read_print, at_index_nat, H. reflexivity.
Qed.
Lemma read_edge_row acts i j a b z : nth_error acts i = Some a -> nth_error acts j = Some b ->
  read_edge acts (print_int (Z.of_nat i) ++ [c_gt] ++ print_int (Z.of_nat j) ++ [c_x] ++ print_int z ++ [c_nl]) = Some (a, b, z).
Proof.
  intros Ha Hb. unfold read_edge.
  assert (E : strip (print_int (Z.of_nat i) ++ [c_gt] ++ print_int (Z.of_nat j) ++ [c_x] ++ print_int z ++ [c_nl])
    = (print_int (Z.of_nat i) ++ c_gt :: print_int (Z.of_nat j)) ++ c_x :: print_int z).
  { replace (print_int (Z.of_nat i) ++ [c_gt] ++ print_int (Z.of_nat j) ++ [c_x] ++ print_int z ++ [c_nl])
      with ((print_int (Z.of_nat i) ++ [c_gt] ++ print_int (Z.of_nat j) ++ [c_x] ++ print_int z) ++ [c_nl])
      by (rewrite <- !app_assoc; reflexivity).
    rewrite strip_nl. destruct (int_chars (Z.of_nat i)) as [Hf Hn]. rewrite <- !app_assoc.
    destruct (print_int (Z.of_nat i)) as [|c s]; [congruence|]. inversion Hf; subst. apply strip_cons; [|apply num_not; assumption].
    right. destruct (int_chars z) as [Hz Hz0]. destruct (@exists_last _ _ Hz0) as (l & d & E). rewrite E.
    exists ((c :: s) ++ [c_gt] ++ print_int (Z.of_nat j) ++ [c_x] ++ l), d. split; [rewrite <- !app_assoc; reflexivity|].
    rewrite E in Hz. apply Forall_app in Hz as [_ Hz]. inversion Hz; subst. apply num_not; assumption. }
  rewrite E. rewrite split_one.
  - rewrite split_none by apply num_no_x. rewrite read_print. rewrite split_one by apply num_no_gt. rewrite split_none by apply num_no_gt.
    rewrite !read_print, !at_index_nat, Ha, Hb. reflexivity.
  - intros d Hd. apply in_app_or in Hd as [Hd|[<-|Hd]]; [eapply num_no_x; eauto|reflexivity|eapply num_no_x; eauto].
Qed.

(** ** Names *)
(** No line breaks, no white space at the ends. *)
Definition plain (s : text) : Prop := strip s = s /\ forall c, In c s -> c <> c_nl /\ c <> c_cr.

Section Round.
  Context (ord : list text -> list text) (Hord : forall l, Permutation (ord l) l).
  Context (g : dfg_graph) (sa ea : act_counts).
  Context (Hg : NoDup (d_keys g)) (Hsa : NoDup (d_keys sa)) (Hea : NoDup (d_keys ea)).
  Context (Hplain : forall e, In e (d_keys g) -> plain (fst e) /\ plain (snd e)).

  Lemma activities_in a : In a (activities ord g) <-> exists e, In e (d_keys g) /\ (a = fst e \/ a = snd e).
  Proof.
    unfold activities. rewrite (Permutation_in' (eq_refl a) (Hord _)). rewrite dedup_in, in_app_iff, !in_map_iff. unfold d_keys. split.
    - intros [(x & <- & Hx)|(x & <- & Hx)]; exists (fst x); (split; [now apply in_map|auto]).
    - intros (e & He & [->| ->]); apply in_map_iff in He as (x & <- & Hx); [left|right]; exists x; auto.
  Qed.
  Lemma activities_plain a : In a (activities ord g) -> plain a.
  Proof. intros H. apply activities_in in H as (e & He & [->| ->]); apply (Hplain e He). Qed.

  Lemma line_num z r : (forall c, In c r -> Ascii.eqb c c_nl = false) -> line (print_int z ++ r ++ [c_nl]).
  Proof.
    intros H. exists (print_int z ++ r). split; [now rewrite app_assoc|]. intros c Hc. apply in_app_or in Hc as [Hc|Hc]; [|auto].
    destruct (int_chars z) as [Hf _]. rewrite Forall_forall in Hf. apply (num_not c (Hf c Hc)).
  Qed.
  Lemma num_no_nl z c : In c (print_int z) -> Ascii.eqb c c_nl = false.
  Proof. intros H. destruct (int_chars z) as [Hf _]. rewrite Forall_forall in Hf. apply (num_not c (Hf c H)). Qed.
  Lemma num_no_cr z c : In c (print_int z) -> Ascii.eqb c c_cr = false.
  Proof. intros H. destruct (int_chars z) as [Hf _]. rewrite Forall_forall in Hf. apply (num_not c (Hf c H)). Qed.

  Definition no_cr (s : text) : Prop := forall c, In c s -> Ascii.eqb c c_cr = false.
  Lemma act_lines_ok acts d ls : act_lines acts d = Some ls -> Forall (fun l => line l /\ no_cr l) ls.
  Proof.
    unfold act_lines. destruct (map_opt _ d) as [r|] eqn:E; [|discriminate]. cbn. intros [= <-]. constructor.
    - split; [apply (line_num _ []); easy|]. intros c Hc. apply in_app_or in Hc as [Hc|[<-|[]]]; [eapply num_no_cr; eauto|reflexivity].
    - eapply map_opt_forall; [|exact E]. intros [a n] y _. cbn. destruct (index_of acts a); [|discriminate]. cbn. intros [= <-]. split.
      + apply (line_num _ (c_x :: print_int n)). intros c [<-|Hc]; [reflexivity|eapply num_no_nl; eauto].
      + intros c Hc. apply in_app_or in Hc as [Hc|[<-|Hc]]; [eapply num_no_cr; eauto|reflexivity|].
        apply in_app_or in Hc as [Hc|[<-|[]]]; [eapply num_no_cr; eauto|reflexivity].
  Qed.
  Lemma edge_lines_ok acts d ls : edge_lines acts d = Some ls -> Forall (fun l => line l /\ no_cr l) ls.
  Proof.
    unfold edge_lines. intros E. eapply map_opt_forall; [|exact E]. intros [[a b] n] y _. cbn.
    destruct (index_of acts a); [|discriminate]. destruct (index_of acts b); [|discriminate]. intros [= <-]. split.
    - cut (line (print_int (Z.of_nat n0) ++ (c_gt :: print_int (Z.of_nat n1) ++ c_x :: print_int n) ++ [c_nl])).
      { cbn [app]. rewrite <- app_assoc. exact (fun H => H). }
      apply line_num. intros c [<-|Hc]; [reflexivity|]. apply in_app_or in Hc as [Hc|[<-|Hc]]; [eapply num_no_nl; eauto|reflexivity|eapply num_no_nl; eauto].
    - intros c Hc. apply in_app_or in Hc as [Hc|[<-|Hc]]; [eapply num_no_cr; eauto|reflexivity|].
      apply in_app_or in Hc as [Hc|[<-|Hc]]; [eapply num_no_cr; eauto|reflexivity|].
      apply in_app_or in Hc as [Hc|[<-|[]]]; [eapply num_no_cr; eauto|reflexivity].
  Qed.
  Lemma export_lines_ok ls : export_lines ord g sa ea = Some ls -> Forall (fun l => line l /\ no_cr l) ls.
  Proof.
    unfold export_lines. destruct sa as [|x1 s1]; [discriminate|]. destruct ea as [|x2 s2]; [discriminate|]. cbv zeta.
    destruct (act_lines _ (x1 :: s1)) as [l1|] eqn:E1; [|discriminate]. destruct (act_lines _ (x2 :: s2)) as [l2|] eqn:E2; [|discriminate].
    destruct (edge_lines _ _) as [l3|] eqn:E3; [|discriminate]. intros [= <-]. constructor.
    - split; [apply (line_num _ []); easy|]. intros c Hc. apply in_app_or in Hc as [Hc|[<-|[]]]; [eapply num_no_cr; eauto|reflexivity].
    - rewrite !Forall_app. split; [|split; [|split]].
      + apply Forall_forall. intros l Hl. apply in_map_iff in Hl as (a & <- & Ha). pose proof (activities_plain a Ha) as [_ Hp]. split.
        * exists a. split; [reflexivity|]. intros c Hc. destruct (Ascii.eqb_spec c c_nl); [|reflexivity]. destruct (Hp c Hc). congruence.
        * intros c Hc. apply in_app_or in Hc as [Hc|[<-|[]]]; [|reflexivity]. destruct (Ascii.eqb_spec c c_cr); [|reflexivity]. destruct (Hp c Hc). congruence.
      + eapply act_lines_ok; eauto.
      + eapply act_lines_ok; eauto.
      + eapply edge_lines_ok; eauto.
  Qed.

  Lemma strip_names : map strip (map (fun a => a ++ [c_nl]) (activities ord g)) = activities ord g.
  Proof.
    rewrite map_map. rewrite <- (map_id (activities ord g)) at 2. apply map_ext_in. intros a Ha. rewrite strip_nl. apply (activities_plain a Ha).
  Qed.
  Lemma read_acts acts d r : map_opt (fun ac => option_map (fun i => print_int (Z.of_nat i) ++ [c_x] ++ print_int (snd ac) ++ [c_nl])
                          (index_of acts (fst ac))) d = Some r -> map_opt (read_act acts) r = Some d.
  Proof.
    intros E. rewrite <- (map_id d). eapply map_opt_map; [|exact E]. intros [a z] y _. cbn [fst snd].
    destruct (index_of acts a) as [i|] eqn:Ei; [|discriminate]. cbn. intros [= <-].
    destruct (index_some acts a (index_in _ _ _ Ei)) as (i' & Ei' & Hi). assert (i' = i) by congruence. subst. now apply read_act_row.
  Qed.
  Lemma read_edges acts d r : edge_lines acts d = Some r -> map_opt (read_edge acts) r = Some d.
  Proof.
    unfold edge_lines. intros E. rewrite <- (map_id d). eapply map_opt_map; [|exact E]. intros [[a b] z] y _. cbn [fst snd].
    destruct (index_of acts a) as [i|] eqn:Ei; [|discriminate]. destruct (index_of acts b) as [j|] eqn:Ej; [|discriminate]. intros [= <-].
    destruct (index_some acts a (index_in _ _ _ Ei)) as (i' & Ei' & Hi). assert (i' = i) by congruence. subst.
    destruct (index_some acts b (index_in _ _ _ Ej)) as (j' & Ej' & Hj). assert (j' = j) by congruence. subst. now apply read_edge_row.
  Qed.

  Lemma import_export_rows ls : export_lines ord g sa ea = Some ls -> import_rows ls = Some (g, sa, ea).
  Proof.
    unfold export_lines. destruct sa as [|x1 s1] eqn:Hs; [discriminate|]. destruct ea as [|x2 s2] eqn:He; [discriminate|]. rewrite <- Hs, <- He in *. cbv zeta.
    destruct (act_lines _ sa) as [l1|] eqn:E1; [|discriminate]. destruct (act_lines _ ea) as [l2|] eqn:E2; [|discriminate].
    destruct (edge_lines _ _) as [l3|] eqn:E3; [|discriminate]. intros [= <-].
    unfold act_lines in E1, E2. destruct (map_opt _ sa) as [r1|] eqn:M1; [|discriminate]. destruct (map_opt _ ea) as [r2|] eqn:M2; [|discriminate].
    cbn in E1, E2. injection E1 as <-. injection E2 as <-.
    unfold import_rows. rewrite read_count_print.
    assert (En : length (activities ord g) = length (map (fun a => a ++ [c_nl]) (activities ord g))) by now rewrite map_length.
    rewrite En, take_rows_app, strip_names. cbn [app]. rewrite read_count_print.
    rewrite <- (map_opt_length _ _ _ M1), take_rows_app. rewrite (read_acts _ _ _ M1). cbn [app]. rewrite read_count_print.
    rewrite <- (map_opt_length _ _ _ M2), take_rows_app. rewrite (read_acts _ _ _ M2). rewrite (read_edges _ _ _ E3).
    now rewrite !assign_nodup.
  Qed.
  Lemma import_export s : export_string ord g sa ea = Some s -> import_string s = Some (g, sa, ea) /\ import_file s = Some (g, sa, ea).
  Proof.
    unfold export_string, import_string, import_file. destruct (export_lines ord g sa ea) as [ls|] eqn:E; [|discriminate]. cbn. intros [= <-].
    pose proof (export_lines_ok ls E) as Hl.
    rewrite universal_id.
    - rewrite readlines_concat; [split; now apply import_export_rows|]. eapply Forall_impl; [|exact Hl]. intros x Hx; apply Hx.
    - intros c Hc. apply in_concat in Hc as (l & Hl' & Hc). rewrite Forall_forall in Hl. now apply (Hl l Hl').
  Qed.
  Lemma export_total : sa <> [] -> ea <> [] ->
    (forall a, In a (d_keys sa) \/ In a (d_keys ea) -> exists e, In e (d_keys g) /\ (a = fst e \/ a = snd e)) ->
    exists s, export_string ord g sa ea = Some s.
  Proof.
    clear Hg Hsa Hea Hplain. intros Hs He H. unfold export_string, export_lines.
    assert (A : forall d, (forall a, In a (d_keys d) -> In a (activities ord g)) -> exists ls, act_lines (activities ord g) d = Some ls).
    { intros d Hd. unfold act_lines. destruct (map_opt_total' (fun ac : text * Z => option_map (fun i => print_int (Z.of_nat i) ++ [c_x] ++ print_int (snd ac) ++ [c_nl])
                          (index_of (activities ord g) (fst ac))) d) as (ys & ->); [|cbn; eauto].
      intros [a z] Ha. destruct (index_some (activities ord g) a) as (i & Ei & _); [apply Hd; apply (in_map fst) in Ha; exact Ha|]. cbn. rewrite Ei. cbn. eauto. }
    destruct (A sa) as (l1 & E1); [intros a Ha; apply activities_in; auto|]. destruct (A ea) as (l2 & E2); [intros a Ha; apply activities_in; auto|].
    assert (E : exists l3, edge_lines (activities ord g) g = Some l3).
    { unfold edge_lines. apply map_opt_total'. intros [[a b] z] Hx. cbn.
      apply (in_map fst) in Hx. cbn in Hx.
      destruct (index_some (activities ord g) a) as (i & -> & _); [apply activities_in; exists (a, b); auto|].
      destruct (index_some (activities ord g) b) as (j & -> & _); [apply activities_in; exists (a, b); auto|]. eauto. }
    destruct E as (l3 & E3). destruct sa; [congruence|]. destruct ea; [congruence|]. cbv zeta. rewrite E1, E2, E3. cbn. eauto.
  Qed.
  Lemma export_none s : export_string ord g sa ea = Some s ->
    sa <> [] /\ ea <> [] /\ (forall a, In a (d_keys sa) \/ In a (d_keys ea) -> exists e, In e (d_keys g) /\ (a = fst e \/ a = snd e)).
  Proof.
    clear Hg Hsa Hea Hplain. unfold export_string, export_lines. destruct sa as [|x1 s1] eqn:Hs; [discriminate|]. destruct ea as [|x2 s2] eqn:He; [discriminate|]. rewrite <- Hs, <- He in *. cbv zeta.
    destruct (act_lines _ sa) as [l1|] eqn:E1; [|discriminate]. destruct (act_lines _ ea) as [l2|] eqn:E2; [|discriminate].
    intros _. split; [congruence|]. split; [congruence|].
    assert (A : forall d ls a, act_lines (activities ord g) d = Some ls -> In a (d_keys d) -> In a (activities ord g)).
    { intros d ls a E Ha. unfold act_lines in E. destruct (map_opt _ d) as [r|] eqn:Em; [|discriminate].
      apply in_map_iff in Ha as ([b z] & <- & Hx). destruct (map_opt_some _ _ _ _ Em Hx) as (y & Hy). cbn in *.
      destruct (index_of _ b) eqn:Ei; [|discriminate]. eapply index_in; eauto. }
    intros a [Ha|Ha]; apply activities_in; [exact (A _ _ _ E1 Ha)|exact (A _ _ _ E2 Ha)].
  Qed.
End Round.
