(** Reading what has been written. *)
From Coq Require Import String Ascii List Arith ZArith Bool Lia.
Import ListNotations.
From Verif Require Import Model_Tree Model_Parse Model_Dict Proofs_Dict Model_DfgFile Proofs_DfgFile Model_Pnml Model_Xes Spec_Xes Proofs_Xes1 Proofs_Xes2.
Local Open Scope list_scope.

Section RoundTrip.
Context {F D : Type} (C : codec F D) (HC : faithful C).
Notation aval := (aval F D).
Notation cell := (@cell F D).
Notation state := (@state F D).

Definition pr (kv : text * aval) : text * cell := (fst kv, XVal (snd kv)).
Fixpoint store_all (a : nat) (l : list (text * cell)) (h : list (dict text cell)) : list (dict text cell) :=
  match l with [] => h | kv :: r => store_all a r (store a (fst kv) (snd kv) h) end.
Definition with_heap (st : state) h : state := {| heap := h; stack := stack st; traces := traces st |}.

Definition body (k : text) (v : aval) (c : text) : text :=
  xes_type k v ++ tx " key=" ++ dq (esc k) ++ tx " value=" ++ dq (esc (xes_value C v (xes_type k v))) ++ c.

Lemma nodq_app a b : nodq (a ++ b) <-> nodq a /\ nodq b.
Proof. unfold nodq. split; [intros H; split; intros c I; apply H, in_app_iff; auto|intros [A B] c I; apply in_app_iff in I as [I|I]; auto]. Qed.
Lemma fields_attr t k s c : nodq t -> nodq k -> nodq s -> nodq c ->
  fields (t ++ tx " key=" ++ dq k ++ tx " value=" ++ dq s ++ c) = [t ++ tx " key="; k; tx " value="; s; strip c].
Proof.
  intros T K S N. unfold fields. rewrite app_assoc. rewrite split_dq; auto; [|apply nodq_app; split; auto; clean_lit].
  rewrite split_dq; auto; [|clean_lit]. rewrite split_none by auto. reflexivity.
Qed.
Definition step (st : state) (k : text) (v : option aval) (c : text) : outcome :=
  match stack st, v with
  | a :: r, Some w => Go {| heap := store a k (XVal w) (heap st);
                            stack := if keqb (strip c) [c_slash] then stack st else 0 :: stack st; traces := traces st |}
  | _, _ => Raise
  end.
Lemma before_attr t r : (exists a b, t = a ++ c_sp :: b /\ ~ In c_sp a /\ a = r) -> before_space t = Some r.
Proof. intros (a & b & -> & N & ->). now apply before_sp. Qed.
Lemma handle_kind st t k s c p : nodq k -> nodq s -> nodq c ->
  In (t, p) [(tx "string", fun s => Some (AStr s)); (tx "date", fun s => option_map ADate (parse_date C s));
             (tx "int", fun s => option_map AInt (read_int s)); (tx "float", fun s => option_map AFloat (parse_float C s));
             (tx "boolean", fun s => Some (ABool (keqb s (tx "true"))))] ->
  handle C st (t ++ tx " key=" ++ dq k ++ tx " value=" ++ dq s ++ c) = step st k (p s) c.
Proof.
  intros K S N I.
  assert (T : nodq t) by (cbn in I; repeat (destruct I as [I|I]; [injection I as <- <-; clean_lit|]); destruct I).
  assert (Fl := fields_attr t k s c T K S N).
  assert (B : before_space (t ++ tx " key=" ++ dq k ++ tx " value=" ++ dq s ++ c) = Some t).
  { apply (before_sp t (tx "key=" ++ dq k ++ tx " value=" ++ dq s ++ c)).
    cbn in I; repeat (destruct I as [I|I]; [injection I as <- <-; cbn; intuition discriminate|]); destruct I. }
  assert (Cl : closing (t ++ tx " key=" ++ dq k ++ tx " value=" ++ dq s ++ c) = false).
  { cbn in I; repeat (destruct I as [I|I]; [injection I as <- <-; reflexivity|]); destruct I. }
  unfold handle. rewrite Cl, B, Fl. revert B Cl Fl.
  generalize (t ++ tx " key=" ++ dq k ++ tx " value=" ++ dq s ++ c). intros el _ _ _.
  cbn in I; repeat (destruct I as [I|I]; [injection I as <- <-; reflexivity|]); destruct I.
Qed.
Definition stk (c : text) (l : list nat) : list nat := if keqb (strip c) [c_slash] then l else 0 :: l.

(** an attribute that is not nested *)
Lemma handle_body st k v k' w' c a r : reads C (k, v) (k', w') -> (forall u l, v <> ANested u l) -> nodq c -> stack st = a :: r ->
  handle C st (body k v c) = Go {| heap := store a k' (XVal w') (heap st); stack := stk c (stack st); traces := traces st |}.
Proof.
  intros R NN Nc St. unfold body. destruct HC as [HF HD].
  assert (Q : forall s, lacks s [34] -> nodq (esc s)) by (intros; now apply nodq_in, esc_dq).
  assert (Qp : forall s, plain s -> nodq (esc s)) by (intros; now apply Q, plain_lacks).
  assert (G : forall t s p w, In (t, p) [(tx "string", fun s => Some (AStr s)); (tx "date", fun s => option_map ADate (parse_date C s));
             (tx "int", fun s => option_map AInt (read_int s)); (tx "float", fun s => option_map AFloat (parse_float C s));
             (tx "boolean", fun s => Some (ABool (keqb s (tx "true"))))] -> nodq (esc k) -> nodq (esc s) -> p (esc s) = Some w ->
     handle C st (t ++ tx " key=" ++ dq (esc k) ++ tx " value=" ++ dq (esc s) ++ c)
     = Go {| heap := store a (esc k) (XVal w) (heap st); stack := stk c (stack st); traces := traces st |}).
  { intros t s p w I K S P. rewrite (handle_kind _ _ _ _ _ p) by auto. unfold step. rewrite P, St. reflexivity. }
  inversion R; subst.
    assert (T : xes_type k (AStr s : aval) = tx "string") by (unfold xes_type; now destruct (keqb k name_key)).
    rewrite T. eapply (G (tx "string")); [left; reflexivity|auto|auto|reflexivity].
  - assert (T : xes_type k (AOther s : aval) = tx "string") by (unfold xes_type; now destruct (keqb k name_key)).
    rewrite T. eapply (G (tx "string")); [left; reflexivity|auto|auto|reflexivity].
  - assert (T : xes_type k (AInt z : aval) = tx "int") by (unfold xes_type; now rewrite keqb_neq).
    rewrite T. eapply (G (tx "int")); [right; right; left; reflexivity|auto| |].
    + apply Qp, num_lacks.
    + change (xes_value C (AInt z) (tx "int")) with (print_int z). rewrite esc_plain by apply num_lacks. rewrite read_print. reflexivity.
  - assert (T : xes_type k (AFloat f : aval) = tx "float") by (unfold xes_type; now rewrite keqb_neq).
    rewrite T. eapply (G (tx "float")); [right; right; right; left; reflexivity|auto| |].
    + apply Qp. apply HF.
    + change (xes_value C (AFloat f) (tx "float")) with (show_float C f). rewrite esc_plain by apply HF. rewrite (proj1 (HF f)). reflexivity.
  - assert (T : xes_type k (ADate d : aval) = tx "date") by (unfold xes_type; now rewrite keqb_neq).
    rewrite T. eapply (G (tx "date")); [right; left; reflexivity|auto| |].
    + apply Qp. apply HD.
    + change (xes_value C (ADate d) (tx "date")) with (show_date C d). rewrite esc_plain by apply HD. rewrite (proj1 (HD d)). reflexivity.
  - assert (T : xes_type k (ABool b : aval) = tx "boolean") by (unfold xes_type; now rewrite keqb_neq).
    rewrite T. eapply (G (tx "boolean")); [right; right; right; right; left; reflexivity|auto| |].
    + destruct b; clean_lit.
    + destruct b; reflexivity.
  - rewrite <- (esc_plain (tx "concept:name")) at 3 by apply name_plain.
    apply (G (tx "string") _ (fun s => Some (AStr s))); [left; reflexivity|apply Qp, name_plain|apply Qp, num_lacks|].
    cbn [py_str]. now rewrite esc_plain by apply num_lacks.
  - exfalso. now eapply NN.
Qed.

Lemma reads_ind' (P : text * aval -> text * aval -> Prop) :
  (forall k v r, reads C (k, v) r -> (forall u l, v <> ANested u l) -> P (k, v) r) ->
  (forall k w ch r cr, k <> tx "concept:name" -> reads C (k, w) r -> (forall u l, w <> ANested u l) -> P (k, w) r ->
     Forall2 (reads C) ch cr -> Forall2 P ch cr -> P (k, ANested w ch) r) ->
  forall x y, reads C x y -> P x y.
Proof.
  intros H1 H2. fix IH 3. intros x y R. destruct R as [k s A B|k s A B|k z A B|k f A B|k d A B|k b A B|z|k w ch r cr A B N Fa].
  1-7: apply H1; [now constructor|easy].
  apply (H2 k w ch r cr); auto. clear A B N. induction Fa; constructor; auto.
Qed.

Lemma concat_opt_app a b s t : concat_opt a = Some s -> concat_opt b = Some t -> concat_opt (a ++ b) = Some (s ++ t).
Proof.
  revert s. induction a as [|[x|] a IH]; intros s A B; cbn in *; [injection A as <-; exact B| |discriminate].
  destruct (concat_opt a) as [u|]; [|discriminate]. injection A as <-. rewrite (IH u) by auto. now rewrite app_assoc.
Qed.

Lemma type_ok k (v : aval) : clean (xes_type k v) /\ nodq (xes_type k v) /\ (exists c r, xes_type k v = c :: r /\ is_space c = false) /\ closing (xes_type k v) = false.
Proof.
  unfold xes_type. destruct (keqb k name_key).
  - split; [clean_lit|]. split; [clean_lit|]. split; [|reflexivity]. eexists; eexists; split; reflexivity.
  - destruct v; (split; [clean_lit|]; split; [clean_lit|]; split; [|reflexivity]; eexists; eexists; split; reflexivity).
Qed.
Lemma dq_clean s : clean s -> clean (dq s).
Proof. intros H. unfold dq. repeat (apply clean_app; split); auto; clean_lit. Qed.
Lemma body_good k v c : clean c -> body_ok (body k v c).
Proof.
  intros H. destruct (type_ok k v) as (A & _ & (x & r & E & Sx) & _). unfold body. split.
  - repeat (apply clean_app; split); auto; try clean_lit; apply esc_clean.
  - rewrite E. cbn [app]. eauto.
Qed.
Lemma line_body n k (v : aval) c : lacks k [34] -> lacks (xes_value C v (xes_type k v)) [34] ->
  simple_line C n k v (c ++ tx ">") = indent n ++ tx "<" ++ body k v c ++ tx ">" ++ nl.
Proof. intros A B. unfold simple_line, body. rewrite !quote_esc by auto. now rewrite <- !app_assoc. Qed.
Lemma reads_lacks k v r : reads C (k, v) r -> (forall u l, v <> ANested u l) -> lacks k [34] /\ lacks (xes_value C v (xes_type k v)) [34].
Proof.
  intros R N. destruct HC as [HF HD]. inversion R; subst.
  - split; auto. assert (T : xes_type k (AStr s : aval) = tx "string") by (unfold xes_type; now destruct (keqb k name_key)). rewrite T. auto.
  - split; auto. assert (T : xes_type k (AOther s : aval) = tx "string") by (unfold xes_type; now destruct (keqb k name_key)). rewrite T. auto.
  - split; auto. assert (T : xes_type k (AInt z : aval) = tx "int") by (unfold xes_type; now rewrite keqb_neq). rewrite T. apply plain_lacks, num_lacks.
  - split; auto. assert (T : xes_type k (AFloat f : aval) = tx "float") by (unfold xes_type; now rewrite keqb_neq). rewrite T. apply plain_lacks, HF.
  - split; auto. assert (T : xes_type k (ADate d : aval) = tx "date") by (unfold xes_type; now rewrite keqb_neq). rewrite T. apply plain_lacks, HD.
  - split; auto. assert (T : xes_type k (ABool b : aval) = tx "boolean") by (unfold xes_type; now rewrite keqb_neq). rewrite T.
    destruct b; intros c I [J|[]]; cbn in I; repeat (destruct I as [<-|I]; [discriminate|]); destruct I.
  - split; [apply plain_lacks, name_plain|apply plain_lacks, num_lacks].
  - exfalso. now eapply N.
Qed.

Definition attr_spec (kv kv' : text * aval) : Prop := forall n, exists s l,
  export_attribute C (fst kv) (snd kv) n = Some s /\ tagged s l /\
  forall st a r, stack st = a :: r -> run C st l = Go (with_heap st (store a (fst kv') (XVal (snd kv')) (heap st))).
Definition attrs_spec (l l' : list (text * aval)) : Prop := forall n, exists s ls,
  concat_opt (map (fun kv => export_attribute C (fst kv) (snd kv) n) l) = Some s /\ tagged s ls /\
  forall st a r, stack st = a :: r -> run C st ls = Go (with_heap st (store_all a (map pr l') (heap st))).
Lemma attrs_from l l' : Forall2 attr_spec l l' -> attrs_spec l l'.
Proof.
  intros H. induction H as [|x y l l' Hx H IH]; intros n.
  - exists [], []. split; [reflexivity|]. split; [constructor; [reflexivity|clean_lit]|]. intros st a r _. cbn. unfold with_heap. now destruct st.
  - destruct (Hx n) as (s & ls & E & T & R). destruct (IH n) as (s' & ls' & E' & T' & R').
    exists (s ++ s'), (ls ++ ls'). cbn [map concat_opt]. rewrite E, E'. split; [reflexivity|]. split; [now apply tagged_app|].
    intros st a r St. rewrite run_app, (R st a r) by auto. rewrite (R' _ a r) by auto. reflexivity.
Qed.
Lemma store_all_0 l h : store_all 0 l h = h.
Proof. revert h. induction l; intros h; cbn; auto. Qed.
Lemma simple_attr k v r : reads C (k, v) r -> (forall u l, v <> ANested u l) -> attr_spec (k, v) r.
Proof.
  intros R N n. destruct (reads_lacks _ _ _ R N) as [A B]. destruct r as [k' w'].
  exists (simple_line C n k v (tx " />")), [body k v (tx " /")]. cbn [fst snd].
  split; [inversion R; subst; try reflexivity; exfalso; now eapply N|].
  split.
  - change (tx " />") with (tx " /" ++ tx ">"). rewrite line_body by auto. apply tagged_in, body_good. clean_lit.
  - intros st a r St. cbn [run]. rewrite (handle_body st k v k' w' (tx " /") a r) by (auto; clean_lit). reflexivity.
Qed.
Lemma attr_ok x y : reads C x y -> attr_spec x y.
Proof.
  revert x y. apply reads_ind'; [intros k v r R N; now apply simple_attr|]. intros k w ch r cr Nk R N IH Fa FIH.
  intros n. destruct (reads_lacks _ _ _ R N) as [A B]. destruct (attrs_from _ _ FIH (n + 1)) as (s & ls & E & T & Rn).
  destruct r as [k' w'].
  exists (simple_line C n k w (tx ">") ++ s ++ tx "</" ++ xes_type k w ++ tx ">" ++ nl), ([body k w []] ++ ls ++ [[c_slash] ++ xes_type k w]).
  cbn [fst snd export_attribute]. rewrite (keqb_neq k name_key) by exact Nk. rewrite E. split; [reflexivity|].
  destruct (type_ok k w) as (Tc & _ & _ & _).
  split.
  - apply tagged_app; [|apply tagged_app; auto].
    + change (tx ">") with ([] ++ tx ">"). rewrite line_body by auto. apply tagged_in, body_good. clean_lit.
    + change (tx "</" ++ xes_type k w ++ tx ">" ++ nl) with (tx "<" ++ ([c_slash] ++ xes_type k w) ++ tx ">" ++ nl).
      apply tagged_0. split; [apply clean_app; split; auto; clean_lit|]. exists c_slash, (xes_type k w). split; reflexivity.
  - intros st a r St. cbn [app run]. rewrite (handle_body st k w k' w' [] a r) by (auto; clean_lit). cbn [stk].
    rewrite run_app. rewrite (Rn _ 0 (stack st)) by reflexivity. rewrite store_all_0. cbn [run].
    unfold handle. cbn [closing]. unfold with_heap. cbn [stack heap traces]. rewrite St. reflexivity.
Qed.
Lemma attrs_ok l l' : Forall2 (reads C) l l' -> attrs_spec l l'.
Proof. intros H. apply attrs_from. induction H; constructor; auto. now apply attr_ok. Qed.

(** ** Dictionaries *)
Lemma replace_app {A} (h : list A) x r f : replace (h ++ x :: r) (length h) f = h ++ f x :: r.
Proof. induction h; cbn; congruence. Qed.
Lemma store_app (h : list (dict text cell)) d r k v : h <> [] -> store (length h) k v (h ++ d :: r) = h ++ d_set d k v :: r.
Proof. intros N. destruct h as [|x h]; [easy|]. unfold store. cbn [length]. apply (replace_app (x :: h)). Qed.
Lemma store_all_app l : forall h d r, h <> [] -> NoDup (map fst (d ++ l)) -> store_all (length h) l (h ++ d :: r) = h ++ (d ++ l) :: r.
Proof.
  induction l as [|[k v] l IH]; intros h d r N Nd; cbn [store_all].
  - now rewrite app_nil_r.
  - rewrite store_app by auto. cbn [fst snd]. rewrite d_set_new.
    + rewrite IH by (auto; rewrite <- app_assoc; exact Nd). now rewrite <- app_assoc.
    + rewrite map_app in Nd. cbn in Nd. apply NoDup_remove_2 in Nd. intros I. apply Nd, in_app_iff. left. exact I.
Qed.
Lemma pr_keys (l : list (text * aval)) : map fst (map pr l) = map fst l.
Proof. rewrite map_map. now apply map_ext. Qed.
Lemma fresh_dict (h : list (dict text cell)) (l : list (text * aval)) : h <> [] -> NoDup (map fst l) -> store_all (length h) (map pr l) (h ++ [[]]) = h ++ [map pr l].
Proof. intros N Nd. apply (store_all_app (map pr l) h [] []); auto. cbn. now rewrite pr_keys. Qed.

Definition mk h s t : state := {| heap := h; stack := s; traces := t |}.
Lemma handle_close st s a b r : stack st = a :: b :: r -> handle C st (c_slash :: s) = Go (mk (heap st) (b :: r) (traces st)).
Proof. intros E. unfold handle. cbn [closing]. change (Ascii.eqb c_slash c_slash) with true. cbn iota. now rewrite E. Qed.

(** events *)
Lemma event_ok e e' : reads_dict C e e' -> exists s ls, export_event C e = Some s /\ tagged s ls /\
  forall h a r x es ts, h <> [] -> run C (mk h (a :: r) ((x, es) :: ts)) ls = Go (mk (h ++ [map pr e']) (a :: r) ((x, es ++ [length h]) :: ts)).
Proof.
  intros [H Nd]. destruct (attrs_ok _ _ H 3) as (s & ls & E & T & R).
  unfold export_event, export_attributes. rewrite E. cbn [concat_opt]. rewrite app_nil_r.
  eexists. exists ([tx "event"] ++ ls ++ [tx "/event"]). split; [reflexivity|]. split.
  - apply tagged_app; [apply (tagged_in 2 (tx "event"))|apply tagged_app; [auto|apply (tagged_in 2 (tx "/event"))]];
      (split; [clean_lit|eexists; eexists; split; reflexivity]).
  - intros h a r x es ts N. cbn [app run].
    assert (E1 : handle C (mk h (a :: r) ((x, es) :: ts)) (tx "event") = Go (mk (h ++ [[]]) (length h :: a :: r) ((x, es ++ [length h]) :: ts))) by reflexivity.
    rewrite E1. rewrite run_app. rewrite (R _ (length h) (a :: r)) by reflexivity. cbn [mk heap]. unfold with_heap. cbn [mk heap stack traces].
    rewrite (fresh_dict h e') by auto. cbn [run]. change (tx "/event") with (c_slash :: tx "event"). erewrite handle_close by reflexivity. reflexivity.
Qed.
Fixpoint addresses (n : nat) {A} (l : list A) : list nat := match l with [] => [] | _ :: r => n :: addresses (S n) r end.
Lemma app1_ne {A} (h : list A) x : h ++ [x] <> [].
Proof. now destruct h. Qed.
Lemma events_ok l l' : Forall2 (reads_dict C) l l' -> exists s ls, concat_opt (map (export_event C) l) = Some s /\ tagged s ls /\
  forall h a r x es ts, h <> [] -> run C (mk h (a :: r) ((x, es) :: ts)) ls
    = Go (mk (h ++ map (map pr) l') (a :: r) ((x, es ++ addresses (length h) l') :: ts)).
Proof.
  intros H. induction H as [|e e' l l' He H IH].
  - exists [], []. split; [reflexivity|]. split; [constructor; [reflexivity|clean_lit]|]. intros. cbn. now rewrite !app_nil_r.
  - destruct (event_ok _ _ He) as (s & ls & E & T & R). destruct IH as (s' & ls' & E' & T' & R').
    exists (s ++ s'), (ls ++ ls'). cbn [map concat_opt]. rewrite E, E'. split; [reflexivity|]. split; [now apply tagged_app|].
    intros h a r x es ts N. rewrite run_app, R by auto. rewrite R' by apply app1_ne. rewrite app_length, Nat.add_1_r. cbn [map addresses length].
    rewrite <- !app_assoc. reflexivity.
Qed.

(** traces *)
Definition trace_cells (t : list (text * aval) * list (list (text * aval))) : list (dict text cell) := map pr (fst t) :: map (map pr) (snd t).
Lemma trace_ok t t' : reads_dict C (fst t) (fst t') -> Forall2 (reads_dict C) (snd t) (snd t') -> exists s ls, export_trace C t = Some s /\ tagged s ls /\
  forall h a r ts, h <> [] -> run C (mk h (a :: r) ts) ls = Go (mk (h ++ trace_cells t') (a :: r) ((length h, addresses (S (length h)) (snd t')) :: ts)).
Proof.
  intros [H Nd] He. destruct (attrs_ok _ _ H 2) as (s & ls & E & T & R). destruct (events_ok _ _ He) as (s' & ls' & E' & T' & R').
  unfold export_trace, export_attributes. rewrite E, E'. cbn [concat_opt]. rewrite app_nil_r.
  eexists. exists ([tx "trace"] ++ ls ++ ls' ++ [tx "/trace"]). split; [reflexivity|]. split.
  - apply tagged_app; [apply (tagged_in 1 (tx "trace"))|apply tagged_app; [auto|apply tagged_app; [auto|apply (tagged_in 1 (tx "/trace"))]]];
      (split; [clean_lit|eexists; eexists; split; reflexivity]).
  - intros h a r ts N. cbn [app run].
    assert (E1 : handle C (mk h (a :: r) ts) (tx "trace") = Go (mk (h ++ [[]]) (length h :: a :: r) ((length h, []) :: ts))) by reflexivity.
    rewrite E1. rewrite run_app. rewrite (R _ (length h) (a :: r)) by reflexivity. unfold with_heap. cbn [mk heap stack traces].
    rewrite (fresh_dict h (fst t')) by auto. rewrite run_app. fold (mk (h ++ [map pr (fst t')]) (length h :: a :: r) ((length h, []) :: ts)).
    rewrite R' by apply app1_ne. rewrite app_length, Nat.add_1_r. cbn [run app].
    change (tx "/trace") with (c_slash :: tx "trace"). erewrite handle_close by reflexivity.
    unfold trace_cells. cbn [mk heap traces]. rewrite <- app_assoc. reflexivity.
Qed.
Fixpoint trace_refs (n : nat) (l : list (list (text * aval) * list (list (text * aval)))) : list (nat * list nat) :=
  match l with [] => [] | t :: r => (n, addresses (S n) (snd t)) :: trace_refs (n + length (trace_cells t)) r end.
Lemma traces_ok l l' : Forall2 (fun t t' => reads_dict C (fst t) (fst t') /\ Forall2 (reads_dict C) (snd t) (snd t')) l l' ->
  exists s ls, concat_opt (map (export_trace C) l) = Some s /\ tagged s ls /\
  forall h a r ts, h <> [] -> run C (mk h (a :: r) ts) ls = Go (mk (h ++ concat (map trace_cells l')) (a :: r) (rev (trace_refs (length h) l') ++ ts)).
Proof.
  intros H. induction H as [|t t' l l' [Ht He] H IH].
  - exists [], []. split; [reflexivity|]. split; [constructor; [reflexivity|clean_lit]|]. intros. cbn. now rewrite !app_nil_r.
  - destruct (trace_ok _ _ Ht He) as (s & ls & E & T & R). destruct IH as (s' & ls' & E' & T' & R').
    exists (s ++ s'), (ls ++ ls'). cbn [map concat_opt]. rewrite E, E'. split; [reflexivity|]. split; [now apply tagged_app|].
    intros h a r ts N. rewrite run_app, R by auto. rewrite R' by (destruct h; easy). rewrite app_length. cbn [map concat trace_refs rev].
    rewrite <- !app_assoc. reflexivity.
Qed.

(** globals: the dictionary of the scopes is at address 4 *)
Lemma global_ok g g' : unquoted (fst g) -> fst g' = fst g -> reads_dict C (snd g) (snd g') -> exists s ls, export_global C g = Some s /\ tagged s ls /\
  forall h0 h1 h2 h3 d r a q ts, ~ In (fst g) (d_keys d) -> run C (mk (h0 :: h1 :: h2 :: h3 :: d :: r) (a :: q) ts) ls
    = Go (mk (h0 :: h1 :: h2 :: h3 :: (d ++ [(fst g, XDict (5 + length r))]) :: r ++ [map pr (snd g')]) (a :: q) ts).
Proof.
  intros U Eg [H Nd]. destruct (attrs_ok _ _ H 2) as (s & ls & E & T & R).
  unfold export_global, export_attributes. rewrite E. cbn [concat_opt]. rewrite app_nil_r.
  assert (U' : clean (fst g) /\ nodq (fst g)).
  { split; intros c I.
    - destruct (angle c) eqn:A; auto. apply angle_in in A. exfalso. apply (U c I). destruct A as [A|[A|[]]]; rewrite <- A; cbn; tauto.
    - apply Ascii.eqb_neq. intros ->. apply (U _ I). cbn. tauto. }
  destruct U' as [Uc Ud].
  eexists. exists ([tx "global scope=" ++ dq (fst g)] ++ ls ++ [tx "/global"]). split; [reflexivity|]. split.
  - rewrite <- !app_assoc. 
    change (indent 1 ++ tx "<global scope=" ++ dq (fst g) ++ tx ">" ++ nl ++ s ++ indent 1 ++ tx "</global>" ++ nl)
      with (indent 1 ++ tx "<" ++ (tx "global scope=" ++ dq (fst g)) ++ tx ">" ++ nl ++ s ++ indent 1 ++ tx "<" ++ tx "/global" ++ tx ">" ++ nl).
    rewrite (app_assoc (tx ">")). rewrite (app_assoc (tx "global scope=" ++ dq (fst g))). rewrite (app_assoc (tx "<")). rewrite (app_assoc (indent 1)).
    apply tagged_app; [apply (tagged_in 1)|apply tagged_app; [auto|apply (tagged_in 1 (tx "/global"))]].
    + split; [apply clean_app; split; [clean_lit|now apply dq_clean]|eexists; eexists; split; reflexivity].
    + split; [clean_lit|eexists; eexists; split; reflexivity].
  - intros h0 h1 h2 h3 d r a q ts N. cbn [app run].
    assert (Fd : fields (tx "global scope=" ++ dq (fst g)) = [tx "global scope="; fst g; []]).
    { unfold fields. rewrite <- (app_nil_r (dq (fst g))). rewrite split_dq; auto. clean_lit. }
    assert (E1 : handle C (mk (h0 :: h1 :: h2 :: h3 :: d :: r) (a :: q) ts) (tx "global scope=" ++ dq (fst g))
      = Go (mk ((h0 :: h1 :: h2 :: h3 :: d_set d (fst g) (XDict (5 + length r)) :: r) ++ [[]]) (5 + length r :: a :: q) ts)).
    { unfold handle. change (closing (tx "global scope=" ++ dq (fst g))) with false. cbn iota.
      change (tx "global scope=" ++ dq (fst g)) with (tx "global" ++ c_sp :: (tx "scope=" ++ dq (fst g))) at 1.
      rewrite before_sp by (cbn; intuition discriminate). rewrite Fd. reflexivity. }
    rewrite E1. rewrite d_set_new by auto.
    set (h := h0 :: h1 :: h2 :: h3 :: (d ++ [(fst g, XDict (5 + length r))]) :: r).
    assert (L : 5 + length r = length h) by reflexivity. 
    rewrite run_app. rewrite (R _ (5 + length r) (a :: q)) by reflexivity. unfold with_heap. cbn [mk heap stack traces].
    assert (FD := fresh_dict h (snd g') ltac:(easy) Nd).
    match goal with |- run C {| heap := ?X; stack := _; traces := _ |} _ = _ => replace X with (h ++ [map pr (snd g')]) by (symmetry; exact FD) end.
    cbn [run].
    change (tx "/global") with (c_slash :: tx "global"). erewrite handle_close by reflexivity. reflexivity.
Qed.
Fixpoint scopes (n : nat) (l : list (text * list (text * aval))) : dict text cell :=
  match l with [] => [] | g :: r => (fst g, XDict n) :: scopes (S n) r end.
Lemma scopes_keys n l : d_keys (scopes n l) = map fst l.
Proof. revert n. induction l as [|g l IH]; intros n; [reflexivity|]. cbn. f_equal. apply IH. Qed.
Lemma globals_ok l l' : Forall2 (fun g g' => unquoted (fst g) /\ fst g' = fst g /\ reads_dict C (snd g) (snd g')) l l' ->
  exists s ls, concat_opt (map (export_global C) l) = Some s /\ tagged s ls /\
  forall h0 h1 h2 h3 d r a q ts, NoDup (map fst d ++ map fst l) -> run C (mk (h0 :: h1 :: h2 :: h3 :: d :: r) (a :: q) ts) ls
    = Go (mk (h0 :: h1 :: h2 :: h3 :: (d ++ scopes (5 + length r) l') :: r ++ map (fun g => map pr (snd g)) l') (a :: q) ts).
Proof.
  intros H. induction H as [|g g' l l' (U & Eg & Hg) H IH].
  - exists [], []. split; [reflexivity|]. split; [constructor; [reflexivity|clean_lit]|]. intros. cbn. now rewrite !app_nil_r.
  - destruct (global_ok g g' U Eg Hg) as (s & ls & E & T & R). destruct IH as (s' & ls' & E' & T' & R').
    exists (s ++ s'), (ls ++ ls'). cbn [map concat_opt]. rewrite E, E'. split; [reflexivity|]. split; [now apply tagged_app|].
    intros h0 h1 h2 h3 d r a q ts N. rewrite run_app, R.
    + rewrite R'.
      * rewrite app_length, Nat.add_1_r. cbn [map scopes]. rewrite Eg, <- !app_assoc. reflexivity.
      * rewrite map_app, <- app_assoc. exact N.
    + cbn in N. apply NoDup_remove_2 in N. intros I. apply N, in_app_iff. now left.
Qed.

(** extensions and classifiers *)
Lemma unq s : unquoted s -> clean s /\ nodq s.
Proof.
  intros U. split; intros c I.
  - destruct (angle c) eqn:A; auto. apply angle_in in A. exfalso. apply (U c I). destruct A as [A|[A|[]]]; rewrite <- A; cbn; tauto.
  - apply Ascii.eqb_neq. intros ->. apply (U _ I). cbn. tauto.
Qed.
Lemma extension_ok e : good_extension e -> exists l, tagged (export_extension e) l /\
  forall h0 h1 d r a q ts, ~ In (fst e) (d_keys d) -> run C (mk (h0 :: h1 :: d :: r) (a :: q) ts) l
    = Go (mk (h0 :: h1 :: (d ++ [(fst e, XExt (fst (snd e)) (snd (snd e)))]) :: r) (a :: q) ts).
Proof.
  destruct e as [n [p u]]. intros (Un & Up & Uu & N1 & N2 & N3). cbn [fst snd] in *.
  destruct (unq _ Un) as [Cn Dn], (unq _ Up) as [Cp Dp], (unq _ Uu) as [Cu Du].
  set (b := tx "extension name=" ++ dq n ++ tx " prefix=" ++ dq p ++ tx " uri=" ++ dq u ++ tx " /").
  exists [b]. split.
  - replace (export_extension (n, (p, u))) with (indent 1 ++ tx "<" ++ b ++ tx ">" ++ nl).
    + apply tagged_in. split; [|eexists; eexists; split; reflexivity].
      unfold b. repeat (apply clean_app; split); auto; clean_lit.
    + unfold b, export_extension. cbn [fst snd]. change (tx "<extension name=") with (tx "<" ++ tx "extension name="). change (tx " />") with (tx " /" ++ tx ">").
      rewrite <- !app_assoc. reflexivity.
  - intros h0 h1 d r a q ts I. cbn [run].
    assert (Fd : fields b = [tx "extension name="; n; tx " prefix="; p; tx " uri="; u; tx "/"]).
    { unfold b, fields. rewrite split_dq by (auto; clean_lit). rewrite split_dq by (auto; clean_lit). rewrite split_dq by (auto; clean_lit).
      rewrite split_none by clean_lit. reflexivity. }
    unfold handle. change (closing b) with false. cbn iota.
    replace (before_space b) with (Some (tx "extension")) by (symmetry; apply (before_sp (tx "extension")); cbn; intuition discriminate).
    rewrite Fd. 
    assert (A1 : after (tx "name=") [tx "extension name="; n; tx " prefix="; p; tx " uri="; u; tx "/"] = Some n) by reflexivity.
    assert (A2 : after (tx "prefix=") [tx "extension name="; n; tx " prefix="; p; tx " uri="; u; tx "/"] = Some p).
    { cbn [after]. change (contains (tx "prefix=") (tx "extension name=")) with false. rewrite (contains_not _ n) by auto. reflexivity. }
    assert (A3 : after (tx "uri=") [tx "extension name="; n; tx " prefix="; p; tx " uri="; u; tx "/"] = Some u).
    { cbn [after]. change (contains (tx "uri=") (tx "extension name=")) with false. rewrite (contains_not _ n) by auto.
      change (contains (tx "uri=") (tx " prefix=")) with false. rewrite (contains_not _ p) by auto. reflexivity. }
    rewrite A1, A2, A3. change (keqb (tx "extension") (tx "string")) with false. change (keqb (tx "extension") (tx "date")) with false.
    change (keqb (tx "extension") (tx "int")) with false. change (keqb (tx "extension") (tx "float")) with false. change (keqb (tx "extension") (tx "boolean")) with false.
    change (keqb (tx "extension") (tx "extension")) with true. cbn iota. unfold push. cbn [mk heap stack traces].
    unfold store. cbn [replace]. rewrite d_set_new by auto. reflexivity.
Qed.
Lemma extensions_ok l : Forall good_extension l -> exists ls, tagged (concat (map export_extension l)) ls /\
  forall h0 h1 d r a q ts, NoDup (map fst d ++ map fst l) -> run C (mk (h0 :: h1 :: d :: r) (a :: q) ts) ls
    = Go (mk (h0 :: h1 :: (d ++ map (fun e => (fst e, XExt (fst (snd e)) (snd (snd e)))) l) :: r) (a :: q) ts).
Proof.
  intros H. induction H as [|e l He H IH].
  - exists []. split; [constructor; [reflexivity|clean_lit]|]. intros. cbn. now rewrite app_nil_r.
  - destruct (extension_ok _ He) as (ls & T & R). destruct IH as (ls' & T' & R').
    exists (ls ++ ls'). split; [now apply tagged_app|]. intros h0 h1 d r a q ts N. rewrite run_app, R.
    + rewrite R' by (rewrite map_app, <- app_assoc; exact N). cbn [map]. now rewrite <- app_assoc.
    + cbn in N. apply NoDup_remove_2 in N. intros I. apply N, in_app_iff. now left.
Qed.
Lemma classifier_ok c : good_classifier c -> exists l, tagged (export_classifier c) l /\
  forall h0 h1 h2 d r a q ts, ~ In (fst c) (d_keys d) -> run C (mk (h0 :: h1 :: h2 :: d :: r) (a :: q) ts) l
    = Go (mk (h0 :: h1 :: h2 :: (d ++ [(fst c, XKeys (snd c))]) :: r) (a :: q) ts).
Proof.
  destruct c as [n ks]. intros (Un & N1 & W). cbn [fst snd] in *. destruct (unq _ Un) as [Cn Dn].
  assert (J : clean (join_sp ks) /\ nodq (join_sp ks) /\ ~ In c_quote (join_sp ks)).
  { rewrite Forall_forall in W. split; [|split].
    - intros c I. apply join_in in I as [->|(w & Iw & I)]; [reflexivity|]. destruct (W w Iw) as (_ & U & _). exact (proj1 (unq _ U) c I).
    - intros c I. apply join_in in I as [->|(w & Iw & I)]; [reflexivity|]. destruct (W w Iw) as (_ & U & _). exact (proj2 (unq _ U) c I).
    - intros I. apply join_in in I as [E|(w & Iw & I)]; [discriminate|]. destruct (W w Iw) as (_ & _ & Q & _). apply (Q _ I). now left. }
  destruct J as (Jc & Jd & Jq).
  set (b := tx "classifier name=" ++ dq n ++ tx " keys=" ++ dq (join_sp ks) ++ tx " /").
  exists [b]. split.
  - replace (export_classifier (n, ks)) with (indent 1 ++ tx "<" ++ b ++ tx ">" ++ nl).
    + apply tagged_in. split; [|eexists; eexists; split; reflexivity].
      unfold b. repeat (apply clean_app; split); auto; clean_lit.
    + unfold b, export_classifier. cbn [fst snd]. change (tx "<classifier name=") with (tx "<" ++ tx "classifier name="). change (tx " />") with (tx " /" ++ tx ">").
      rewrite <- !app_assoc. reflexivity.
  - intros h0 h1 h2 d r a q ts I. cbn [run].
    assert (Fd : fields b = [tx "classifier name="; n; tx " keys="; join_sp ks; tx "/"]).
    { unfold b, fields. rewrite split_dq by (auto; clean_lit). rewrite split_dq by (auto; clean_lit). rewrite split_none by clean_lit. reflexivity. }
    unfold handle. change (closing b) with false. cbn iota.
    replace (before_space b) with (Some (tx "classifier")) by (symmetry; apply (before_sp (tx "classifier")); cbn; intuition discriminate).
    rewrite Fd. 
    assert (A1 : after (tx "name=") [tx "classifier name="; n; tx " keys="; join_sp ks; tx "/"] = Some n) by reflexivity.
    assert (A2 : after (tx "keys=") [tx "classifier name="; n; tx " keys="; join_sp ks; tx "/"] = Some (join_sp ks)).
    { cbn [after]. change (contains (tx "keys=") (tx "classifier name=")) with false. rewrite (contains_not _ n) by auto. reflexivity. }
    rewrite A1, A2. change (keqb (tx "classifier") (tx "string")) with false. change (keqb (tx "classifier") (tx "date")) with false.
    change (keqb (tx "classifier") (tx "int")) with false. change (keqb (tx "classifier") (tx "float")) with false. change (keqb (tx "classifier") (tx "boolean")) with false.
    change (keqb (tx "classifier") (tx "extension")) with false. change (keqb (tx "classifier") (tx "classifier")) with true. cbn iota. unfold push. cbn [mk heap stack traces].
    assert (RK : read_keys (join_sp ks) = ks).
    { unfold read_keys. rewrite has_not by auto. apply words_join. eapply Forall_impl; [|exact W]. cbn. tauto. }
    rewrite RK. unfold store. cbn [replace]. rewrite d_set_new by auto. reflexivity.
Qed.
Lemma classifiers_ok l : Forall good_classifier l -> exists ls, tagged (concat (map export_classifier l)) ls /\
  forall h0 h1 h2 d r a q ts, NoDup (map fst d ++ map fst l) -> run C (mk (h0 :: h1 :: h2 :: d :: r) (a :: q) ts) ls
    = Go (mk (h0 :: h1 :: h2 :: (d ++ map (fun e => (fst e, XKeys (snd e))) l) :: r) (a :: q) ts).
Proof.
  intros H. induction H as [|e l He H IH].
  - exists []. split; [constructor; [reflexivity|clean_lit]|]. intros. cbn. now rewrite app_nil_r.
  - destruct (classifier_ok _ He) as (ls & T & R). destruct IH as (ls' & T' & R').
    exists (ls ++ ls'). split; [now apply tagged_app|]. intros h0 h1 h2 d r a q ts N. rewrite run_app, R.
    + rewrite R' by (rewrite map_app, <- app_assoc; exact N). cbn [map]. now rewrite <- app_assoc.
    + cbn in N. apply NoDup_remove_2 in N. intros I. apply N, in_app_iff. now left.
Qed.
End RoundTrip.
