(** Property theorems C22 (discovery of the footprints of a tree), C62 (footprints of logs), C63 (footprints conformance). *)
From Coq Require Import List Arith Lia Bool Permutation ZArith QArith Lqa.
Import ListNotations.
From Verif Require Import Model_Tree Spec_Tree Proofs_Shuffle Model_TreeFP Spec_TreeFP Proofs_TreeFP Model_Bottomup Proofs_Bottomup.
From Verif Require Import Model_Dict Model_Dfg Model_Footprints Proofs_Footprints Proofs_Footprints2.
Local Open Scope nat_scope.

(** C22: with distinct labels, the bottom-up discovery reaches the root whatever the enumeration order of the sets of
    nodes, and returns the footprints of the language with the length of its shortest trace. *)
Theorem C22_discovered : forall t ord1 ord2 fuel, fp_tree t -> unique_labels t ->
  (forall l, Permutation (ord1 l) l) -> (forall l, Permutation (ord2 l) l) -> size t < fuel ->
  exists f n, tree_footprints ord1 ord2 fuel t = Some (f, n) /\
    (f_skip f = true <-> lang t []) /\
    (forall a, In a (f_start f) <-> begins (lang t) a) /\
    (forall a, In a (f_end f) <-> finishes (lang t) a) /\
    (forall a, In a (f_acts f) <-> occurs (lang t) a) /\
    (forall a, In a (f_always f) <-> always (lang t) a) /\
    (forall a b, In (a, b) (f_seq f) <-> follows (lang t) a b /\ ~ follows (lang t) b a) /\
    (forall a b, In (a, b) (f_par f) <-> follows (lang t) a b /\ follows (lang t) b a) /\
    (exists w, lang t w /\ length w = n) /\ (forall w, lang t w -> n <= length w).
Proof.
  intros t ord1 ord2 fuel Ht Hu Ho1 Ho2 Hf. exists (rec_fp t), (min_len t). split; [now apply tree_footprints_spec|].
  destruct (rec_exact t Ht) as [H0 H1 H2 H3 H4 H5 H6 H7 H8]. do 5 (split; [auto|]).
  assert (D : forall a b, In (a, b) (f_par (rec_fp t)) \/ ~ In (a, b) (f_par (rec_fp t))).
  { intros a b. rewrite <- mem_pair_ok. destruct (mem_pair (a, b) (f_par (rec_fp t))); auto. }
  split; [|split].
  - intros a b. rewrite <- !H5. split.
    + intros H. destruct (H7 _ _ H) as (Ha & Hb). split; auto. intros [?|Hp]; auto.
    + intros ([?|Hp] & Hn); auto. destruct Hn. auto.
  - intros a b. rewrite <- !H5. split.
    + intros H. auto.
    + intros [[Hs|Hp] [Hs'|Hp']]; auto. exfalso. destruct (H7 _ _ Hs) as (Ha & _). auto.
  - apply min_len_spec; [now apply fp_tree_wf|now apply fp_plain].
Qed.
Print Assumptions C22_discovered.

(** C22: the minimal length of a trace, for sequence, choice, parallel and loops with any number of redo children. *)
Theorem C22_min_length : forall t ord fuel, wf_tree t ->
  everywhere (fun u => match u with Node (Or | Interleaving) _ => False | _ => True end) t -> unique_labels t ->
  (forall l, Permutation (ord l) l) -> size t < fuel ->
  exists n, get_min_trace_length ord fuel t = Some n /\ (exists w, lang t w /\ length w = n) /\ (forall w, lang t w -> n <= length w).
Proof.
  intros t ord fuel Hw Hp Hu Ho Hf. exists (min_len t). split.
  - apply min_trace_length_spec; auto. clear -Hp. unfold no_interleaving. induction t as [l|o cs IH] using tree_ind2; [constructor; exact I|].
    inversion Hp as [|? ? Hs Hc]; subst. constructor; [destruct o; auto|]. rewrite Forall_forall in *. auto.
  - now apply min_len_spec.
Qed.
Print Assumptions C22_min_length.

Definition ex_tree : tree nat :=
  Node Sequence [Leaf (Some 1); Node Parallel [Leaf (Some 2); Node Xor [Leaf (Some 3); Leaf None]]; Node Loop [Leaf (Some 4); Leaf (Some 5)]].
Example C22_discovered_example : fp_tree ex_tree /\ unique_labels ex_tree /\
  exists f, tree_footprints (fun l => l) (@rev _) 20 ex_tree = Some (f, 3) /\ f_start f = [1] /\ f_end f = [4] /\ f_always f <> [].
Proof.
  split; [repeat constructor; cbn; auto; discriminate|]. split.
  { split; [cbn; repeat constructor; cbn; intuition discriminate|]. repeat constructor; cbn; discriminate. }
  eexists. split; [vm_compute; reflexivity|]. cbn. repeat split; discriminate.
Qed.

Lemma Permutation_filter' {A} (f : A -> bool) l l' : Permutation l l' -> Permutation (filter f l) (filter f l').
Proof.
  induction 1 as [|x l l' P IH|x y l|l l' l'' P1 IH1 P2 IH2]; cbn.
  - constructor.
  - destruct (f x); [now constructor|exact IH].
  - destruct (f x), (f y); try constructor; reflexivity.
  - now transitivity (filter f l').
Qed.
(** Nodes are identified with equal nodes elsewhere in the tree, and only one of them leads to its parent: with two
    leaves of the same label the root may never be reached, and the look-up of its footprints fails (KeyError). *)
Theorem C22_duplicates_refuted : let t := Node Xor [Node Sequence [Leaf (Some 1); Leaf (Some 2)]; Node Sequence [Leaf (Some 2); Leaf (Some 1)]] in
  fp_tree t /\ forall ord, (forall l, Permutation (ord l) l) ->
  get_bottomup_nodes ord 100 t <> None /\
  (forall ord2 fuel, tree_footprints ord ord2 fuel t = None) /\ (forall fuel, get_min_trace_length ord fuel t = None).
Proof.
  intros t. split; [repeat constructor; cbn; discriminate|]. intros ord Hord.
  assert (Hv : forall fuel, 8 <= fuel -> visit fuel [[t]] [] = visit 8 [[t]] []).
  { intros fuel H. do 8 (destruct fuel as [|fuel]; [lia|]). reflexivity. }
  assert (Hv0 : forall fuel, fuel < 8 -> visit fuel [[t]] [] = None).
  { intros fuel H. do 8 (destruct fuel as [|fuel]; [reflexivity|]). lia. }
  set (leaves := fun l => filter (fun c : chain => match children (node_of c) with [] => true | _ => false end) l).
  assert (Hlv : forall all, visit 8 [[t]] [] = Some all -> exists x y, leaves all = [x; y] /\ (leaves (ord all) = [x; y] \/ leaves (ord all) = [y; x]) /\
     x = [Leaf (Some 1); Node Sequence [Leaf (Some 1); Leaf (Some 2)]; t] /\ y = [Leaf (Some 2); Node Sequence [Leaf (Some 1); Leaf (Some 2)]; t]).
  { intros all E. vm_compute in E. injection E as E. eexists _, _. split; [rewrite <- E; vm_compute; reflexivity|]. split; [|split; reflexivity].
    apply Permutation_length_2_inv. symmetry. pose proof (Hord all) as P. apply (Permutation_filter' (fun c : chain => match children (node_of c) with [] => true | _ => false end)) in P.
    unfold leaves. rewrite P. rewrite <- E. vm_compute. reflexivity. }
  assert (G : forall fuel, get_bottomup_nodes ord fuel t = None \/ exists nodes, get_bottomup_nodes ord fuel t = Some nodes /\
    fill node_footprints nodes [] <> None /\ fill min_length_node nodes [] <> None /\ 
    (forall d, fill node_footprints nodes [] = Some d -> find_node d t = None) /\ (forall d, fill min_length_node nodes [] = Some d -> find_node d t = None)).
  { intros fuel. unfold get_bottomup_nodes. destruct (Nat.lt_ge_cases fuel 8) as [Hl|Hl]; [left; now rewrite Hv0|]. right. rewrite (Hv fuel Hl).
    destruct (visit 8 [[t]] []) as [all|] eqn:E; [|vm_compute in E; discriminate]. destruct (Hlv all eq_refl) as (x & y & _ & Hxy & Ex & Ey).
    fold (leaves (ord all)). do 8 (destruct fuel as [|fuel]; [lia|]). destruct Hxy as [-> | ->]; rewrite Ex, Ey; eexists; (split; [vm_compute; reflexivity|]);
    (split; [vm_compute; discriminate|]); (split; [vm_compute; discriminate|]); split; intros d Hd; vm_compute in Hd; injection Hd as <-; vm_compute; reflexivity. }
  split; [|split].
  - unfold get_bottomup_nodes. rewrite (Hv 100) by lia. destruct (visit 8 [[t]] []) as [all|] eqn:E; [|vm_compute in E; discriminate].
    destruct (Hlv all eq_refl) as (x & y & _ & Hxy & Ex & Ey). fold (leaves (ord all)). destruct Hxy as [-> | ->]; rewrite Ex, Ey; vm_compute; discriminate.
  - intros ord2 fuel. unfold tree_footprints. destruct (G fuel) as [-> |(nodes & -> & H1 & H2 & H3 & H4)]; [reflexivity|].
    destruct (fill node_footprints nodes []) as [d|] eqn:E; [|reflexivity]. now rewrite (H3 d eq_refl).
  - intros fuel. unfold get_min_trace_length. destruct (G fuel) as [-> |(nodes & -> & H1 & H2 & H3 & H4)]; [reflexivity|].
    destruct (fill min_length_node nodes []) as [d|] eqn:E; [|reflexivity]. exact (H4 d eq_refl).
Qed.
Print Assumptions C22_duplicates_refuted.

(** The minimal length of an inclusive choice is computed as the sum of those of the children (bottomup.py:182). *)
Theorem C22_or_min_length_refuted : let t := Node Or [Leaf (Some 1); Leaf (Some 2)] in
  wf_tree t /\ unique_labels t /\ get_min_trace_length (fun l => l) 10 t = Some 2 /\ lang t [1].
Proof.
  intros t. split; [repeat constructor; cbn; discriminate|]. split.
  { split; [cbn; repeat constructor; cbn; intuition discriminate|]. repeat constructor; cbn; discriminate. }
  split; [vm_compute; reflexivity|]. apply lang_or. exists [Leaf (Some 1)], [[1]]. split; [apply sel_take, sel_skip, sel_nil|].
  split; [discriminate|]. split; [repeat constructor|]. apply shuffle_one. reflexivity.
Qed.
Print Assumptions C22_or_min_length_refuted.

(** C62: the footprints of a log are those of the set of its traces. *)
Theorem C62_log_footprints : forall l : log, let L := fun w => In w l in let f := log_footprints l in
  (forall a b, In (a, b) (l_seq f) <-> follows L a b /\ ~ follows L b a) /\
  (forall a b, In (a, b) (l_par f) <-> follows L a b /\ follows L b a) /\
  (forall a, In a (l_start f) <-> begins L a) /\ (forall a, In a (l_end f) <-> finishes L a) /\
  (forall a, In a (l_acts f) <-> occurs L a) /\
  (l <> [] -> (exists w, In w l /\ length w = l_min f) /\ forall w, In w l -> l_min f <= length w).
Proof.
  intros l L f. split; [apply log_seq|]. split; [apply log_par|]. split; [apply log_start|]. split; [apply log_end|]. split; [apply log_acts|apply log_min].
Qed.
Print Assumptions C62_log_footprints.
Theorem C62_trace_footprints : forall t : trace, let L := eq t in let f := trace_footprints t in
  (forall a b, In (a, b) (l_seq f) <-> follows L a b /\ ~ follows L b a) /\
  (forall a b, In (a, b) (l_par f) <-> follows L a b /\ follows L b a) /\
  (forall a, In a (l_start f) <-> begins L a) /\ (forall a, In a (l_end f) <-> finishes L a) /\
  (forall a, In a (l_acts f) <-> occurs L a) /\ l_min f = length t.
Proof.
  intros t L f. split; [apply trace_seq|]. split; [apply trace_par|]. split; [apply trace_start|]. split; [apply trace_end|]. split; [apply trace_acts|reflexivity].
Qed.
Print Assumptions C62_trace_footprints.
(** C62: sequence and parallel partition the directly-follows pairs; parallel is symmetric, sequence antisymmetric. *)
Theorem C62_partition : forall l : log, let f := log_footprints l in
  (forall a b, follows (fun w => In w l) a b <-> In (a, b) (l_seq f) \/ In (a, b) (l_par f)) /\
  (forall a b, ~ (In (a, b) (l_seq f) /\ In (a, b) (l_par f))) /\
  (forall a b, In (a, b) (l_par f) -> In (b, a) (l_par f)) /\ (forall a b, In (a, b) (l_seq f) -> ~ In (b, a) (l_seq f)).
Proof.
  intros l f. split; [intros a b; symmetry; apply log_pairs|]. split; [|split].
  - intros a b [Hs Hp]. apply log_seq in Hs. apply log_par in Hp. tauto.
  - intros a b H. apply log_par in H. apply log_par. tauto.
  - intros a b H H'. apply log_seq in H, H'. tauto.
Qed.
Print Assumptions C62_partition.
Example C62_example : let f := log_footprints [[1; 2; 3; 2]; [1; 4]; [4; 1]] in
  In (1, 2) (l_seq f) /\ ~ In (2, 1) (l_seq f) /\ In (2, 3) (l_par f) /\ In (1, 4) (l_par f) /\ l_min f = 2.
Proof. vm_compute. intuition discriminate. Qed.

(** C63: against the discovered footprints of a tree, the deviations of the log are exactly the directly-follows pairs, first
    and last activities that no trace of the tree shows, and the log is reported as fitting iff there is none and no
    trace is shorter than the shortest trace of the tree. *)
Theorem C63_log_conformance : forall t ord1 ord2 fuel fn (l : log), fp_tree t -> unique_labels t ->
  (forall l, Permutation (ord1 l) l) -> (forall l, Permutation (ord2 l) l) -> size t < fuel ->
  tree_footprints ord1 ord2 fuel t = Some fn ->
  let L := fun w => In w l in let c := conf_log (log_footprints l) (of_tree fn) in
  (forall a b, In (a, b) (c_fp c) <-> follows L a b /\ ~ follows (lang t) a b) /\
  (forall a, In a (c_start c) <-> begins L a /\ ~ begins (lang t) a) /\
  (forall a, In a (c_end c) <-> finishes L a /\ ~ finishes (lang t) a) /\
  (l <> [] -> (c_min_fit c = true <-> forall w, In w l -> exists v, lang t v /\ length v <= length w)) /\
  (c_fit c = true <-> c_fp c = [] /\ c_start c = [] /\ c_end c = [] /\ c_min_fit c = true).
Proof.
  intros t ord1 ord2 fuel fn l Ht Hu Ho1 Ho2 Hf Efn L c.
  rewrite (tree_footprints_spec t Hu ord1 ord2 Ho1 Ho2 fuel Hf Ht) in Efn. injection Efn as <-.
  destruct (rec_exact t Ht) as [H0 H1 H2 H3 H4 H5 H6 H7 H8].
  destruct (min_len_spec t (fp_tree_wf t Ht) (fp_plain t Ht)) as [(v0 & Hv0 & Ev0) Hmin].
  split; [|split; [|split; [|split]]].
  - intros a b. unfold c. rewrite conf_log_fp. unfold covers, of_tree. cbn [m_seq m_par fst]. rewrite H5. reflexivity.
  - intros a. unfold c. rewrite conf_log_start. unfold of_tree. cbn [m_start fst]. rewrite <- H2. split.
    + intros (H & s & [= <-] & Hn). auto.
    + intros (H & Hn). eauto.
  - intros a. unfold c. rewrite conf_log_end. unfold of_tree. cbn [m_end fst]. rewrite <- H3. split.
    + intros (H & s & [= <-] & Hn). auto.
    + intros (H & Hn). eauto.
  - intros Hl. destruct (log_min l) as [_ Hm]. destruct (Hm Hl) as [(w0 & Hw0 & Ew0) Hlw]. unfold c, conf_log. cbv zeta. cbn [c_min_fit of_tree m_min snd]. rewrite Nat.leb_le. split.
    + intros H w Hw. exists v0. split; [exact Hv0|]. specialize (Hlw w Hw). lia.
    + intros H. destruct (H w0 Hw0) as (v & Hv & Hle). specialize (Hmin v Hv). lia.
  - unfold c, conf_log. cbv zeta. cbn [c_fit c_fp c_start c_end c_min_fit]. rewrite !andb_true_iff. unfold isnil.
    split.
    + intros [[[A B] D] E]. split; [|split; [|split]]; [| | |exact E].
      * destruct (diff (union _ _) _); [reflexivity|discriminate].
      * destruct (match m_start _ with Some _ => _ | None => _ end); [reflexivity|discriminate].
      * destruct (match m_end _ with Some _ => _ | None => _ end); [reflexivity|discriminate].
    + intros (A & B & D & E). rewrite A, B, D. auto.
Qed.
Print Assumptions C63_log_conformance.

(** C63: the verdict for a trace; equal traces share a cached result, which changes nothing. *)
Theorem C63_trace_conformance : forall t ord1 ord2 fuel fn, fp_tree t -> unique_labels t ->
  (forall l, Permutation (ord1 l) l) -> (forall l, Permutation (ord2 l) l) -> size t < fuel ->
  tree_footprints ord1 ord2 fuel t = Some fn ->
  forall l : log, exists verdict, conf_log_traces true (of_tree fn) l = map verdict l /\
  forall w, let L := eq w in let c := verdict w in
  (forall a b, In (a, b) (c_fp c) <-> follows L a b /\ ~ follows (lang t) a b) /\
  (forall a, In a (c_start c) <-> begins L a /\ ~ begins (lang t) a) /\
  (forall a, In a (c_end c) <-> finishes L a /\ ~ finishes (lang t) a) /\
  (forall a, In a (c_always c) <-> always (lang t) a /\ ~ In a w) /\
  (c_min_fit c = true <-> exists v, lang t v /\ length v <= length w) /\
  (c_fit c = true <-> c_fp c = [] /\ c_start c = [] /\ c_end c = [] /\ c_always c = [] /\ c_min_fit c = true).
Proof.
  intros t ord1 ord2 fuel fn Ht Hu Ho1 Ho2 Hf Efn l. exists (fun t => conf_trace true (trace_footprints t) (of_tree fn)). split; [apply conf_traces_map|]. intros w L c.
  rewrite (tree_footprints_spec t Hu ord1 ord2 Ho1 Ho2 fuel Hf Ht) in Efn. injection Efn as <-.
  destruct (rec_exact t Ht) as [H0 H1 H2 H3 H4 H5 H6 H7 H8].
  destruct (min_len_spec t (fp_tree_wf t Ht) (fp_plain t Ht)) as [(v0 & Hv0 & Ev0) Hmin].
  unfold c, conf_trace. cbv zeta. cbn [c_fp c_start c_end c_always c_min_fit c_fit of_tree m_seq m_par m_start m_end m_always m_min fst snd].
  split; [|split; [|split; [|split; [|split]]]].
  - intros a b. rewrite (conf_fp_in (trace_footprints w) (of_tree (rec_fp t, min_len t)) (a, b)), trace_pairs. unfold covers. cbn [of_tree m_seq m_par fst]. rewrite H5. reflexivity.
  - intros a. rewrite diff_in, trace_start, H2. reflexivity.
  - intros a. rewrite diff_in, trace_end, H3. reflexivity.
  - intros a. rewrite diff_in, trace_acts, H6. unfold occurs. split; intros [H Hn]; split; auto; intros H'; apply Hn; [exists w; auto|]. destruct H' as (v & <- & H'). exact H'.
  - rewrite Nat.leb_le. cbn [trace_footprints l_min]. split; [intros H; exists v0; split; [exact Hv0|]; rewrite Ev0; exact H|]. intros (v & Hv & Hle). specialize (Hmin v Hv).
    change (min_len t <= length w). lia.
  - rewrite !andb_true_iff. unfold isnil. split.
    + intros [[[[A B] D] F] E]. split; [|split; [|split; [|split]]]; [| | | |exact E].
      * destruct (diff (union _ _) _); [reflexivity|discriminate].
      * destruct (diff (l_start _) _); [reflexivity|discriminate].
      * destruct (diff (l_end _) _); [reflexivity|discriminate].
      * destruct (diff _ (l_acts _)); [reflexivity|discriminate].
    + intros (A & B & D & F & E). rewrite A, B, D, F. auto.
Qed.
Print Assumptions C63_trace_conformance.

(** C63: traces of the tree are never reported as deviating. *)
Theorem C63_language_fits : forall t ord1 ord2 fuel fn (l : log), fp_tree t -> unique_labels t ->
  (forall l, Permutation (ord1 l) l) -> (forall l, Permutation (ord2 l) l) -> size t < fuel ->
  tree_footprints ord1 ord2 fuel t = Some fn -> (forall w, In w l -> lang t w) ->
  (l <> [] -> c_fit (conf_log (log_footprints l) (of_tree fn)) = true) /\
  (forall c, In c (conf_log_traces true (of_tree fn) l) -> c_fit c = true).
Proof.
  intros t ord1 ord2 fuel fn l Ht Hu Ho1 Ho2 Hf Efn Hl. split.
  - intros Hne. destruct (C63_log_conformance t ord1 ord2 fuel fn l Ht Hu Ho1 Ho2 Hf Efn) as (A & B & C & D & E). apply E. split; [|split; [|split]].
    + apply nil_iff. intros [a b] H. apply A in H as ((w1 & w2 & H) & Hn). apply Hn. exists w1, w2. auto.
    + apply nil_iff. intros a H. apply B in H as ((w & H) & Hn). apply Hn. exists w. auto.
    + apply nil_iff. intros a H. apply C in H as ((w & H) & Hn). apply Hn. exists w. auto.
    + apply (D Hne). intros w Hw. exists w. split; auto.
  - intros c Hc. destruct (C63_trace_conformance t ord1 ord2 fuel fn Ht Hu Ho1 Ho2 Hf Efn l) as (verdict & E & H). rewrite E in Hc. apply in_map_iff in Hc as (w & <- & Hw).
    destruct (H w) as (A & B & C & D & F & G). apply G. specialize (Hl w Hw). split; [|split; [|split; [|split]]].
    + apply nil_iff. intros [a b] H'. apply A in H' as ((w1 & w2 & H') & Hn). apply Hn. exists w1, w2. now rewrite <- H'.
    + apply nil_iff. intros a H'. apply B in H' as ((v & H') & Hn). apply Hn. exists v. now rewrite <- H'.
    + apply nil_iff. intros a H'. apply C in H' as ((v & H') & Hn). apply Hn. exists v. now rewrite <- H'.
    + apply nil_iff. intros a H'. apply D in H' as (H' & Hn). apply Hn, H', Hl.
    + apply F. exists w. split; auto.
Qed.
Print Assumptions C63_language_fits.

(** C63: fitness and precision are in [0, 1], the fitness is 1 iff nothing deviates, the precision 1 iff every
    pair of the model occurs in the log.  For any footprints of a model. *)
Theorem C63_fitness_range : forall (l : log) mf, (exists w, In w l /\ 2 <= length w) ->
  let c := conf_log (log_footprints l) mf in let f := fp_fitness (log_footprints l) c in
  (0 <= f)%Q /\ (f <= 1)%Q /\ ((f == 1)%Q <-> c_fp c = [] /\ c_start c = [] /\ c_end c = []).
Proof.
  intros l mf (w & Hw & Hlen). apply entire_fitness. destruct w as [|a [|b w]]; cbn in Hlen; try lia. exists a, b, [], w. exact Hw.
Qed.
Print Assumptions C63_fitness_range.
Theorem C63_fitness_traces_range : forall ae (l : log) mf, (exists w, In w l /\ 2 <= length w) ->
  let cs := conf_log_traces ae mf l in let f := fp_fitness (flatten_fp (map trace_footprints l)) (flatten_conf cs) in
  (0 <= f)%Q /\ (f <= 1)%Q /\ ((f == 1)%Q <-> forall c, In c cs -> c_fp c = [] /\ c_start c = [] /\ c_end c = []).
Proof.
  intros ae l mf (w & Hw & Hlen) cs f.
  assert (Hex : exists a b, follows (fun w => In w l) a b).
  { destruct w as [|a [|b w]]; cbn in Hlen; try lia. exists a, b, [], w. exact Hw. }
  unfold f, cs in *. rewrite conf_traces_map. destruct (traces_fitness ae mf l Hex) as (A & B & C). split; [exact A|]. split; [exact B|].
  rewrite C. rewrite !nil_iff. split.
  - intros (H1 & H2 & H3) c Hc. apply in_map_iff in Hc as (u & <- & Hu). rewrite !nil_iff. split; [|split]; intros x Hx.
    + apply (H1 x). apply (cs_in ae mf l key_pair c_fp); [reflexivity|reflexivity|]. eauto.
    + apply (H2 x). apply (cs_in ae mf l key_nat c_start); [reflexivity|reflexivity|]. eauto.
    + apply (H3 x). apply (cs_in ae mf l key_nat c_end); [reflexivity|reflexivity|]. eauto.
  - intros H. assert (H' : forall u, In u l -> let c := conf_trace ae (trace_footprints u) mf in c_fp c = [] /\ c_start c = [] /\ c_end c = []).
    { intros u Hu. apply H. apply in_map_iff. eauto. }
    split; [|split]; intros x Hx.
    + apply (cs_in ae mf l key_pair c_fp) in Hx as (u & Hu & Hx); [|reflexivity|reflexivity]. destruct (H' u Hu) as (E & _ & _). rewrite E in Hx. contradiction.
    + apply (cs_in ae mf l key_nat c_start) in Hx as (u & Hu & Hx); [|reflexivity|reflexivity]. destruct (H' u Hu) as (_ & E & _). rewrite E in Hx. contradiction.
    + apply (cs_in ae mf l key_nat c_end) in Hx as (u & Hu & Hx); [|reflexivity|reflexivity]. destruct (H' u Hu) as (_ & _ & E). rewrite E in Hx. contradiction.
Qed.
Print Assumptions C63_fitness_traces_range.
Theorem C63_precision_range : forall (l : log) mf, let p := fp_precision (log_footprints l) mf in
  (0 <= p)%Q /\ (p <= 1)%Q /\
  ((p == 1)%Q <-> forall a b, In (a, b) (m_seq mf) \/ In (a, b) (m_par mf) -> follows (fun w => In w l) a b).
Proof.
  intros l mf p. destruct (precision_range (log_footprints l) mf (or_intror I)) as (A & B & C). split; [exact A|]. split; [exact B|]. unfold p. rewrite C. split.
  - intros H a b Hab. apply log_pairs. apply H. exact Hab.
  - intros H [a b] Hab. apply log_pairs. apply H. exact Hab.
Qed.
Print Assumptions C63_precision_range.

Example C63_example : exists fn, tree_footprints (fun l => l) (fun l => l) 20 ex_tree = Some fn /\
  c_fit (conf_log (log_footprints [[1; 2; 3; 4]; [1; 2; 4; 5; 4]]) (of_tree fn)) = true /\
  c_fp (conf_log (log_footprints [[1; 2; 4]; [1; 4; 2]]) (of_tree fn)) = [(1, 4); (4, 2)] /\
  map c_fit (conf_log_traces true (of_tree fn) [[1; 2; 4]; [1; 3; 4]; [1; 2; 4]]) = [true; false; true].
Proof. eexists. split; [vm_compute; reflexivity|]. vm_compute. auto. Qed.

(** When no activity directly follows another, the fitness is 1 although all traces deviate (evaluation.py:93-95). *)
Theorem C63_no_pairs_refuted : exists fn (l : log), tree_footprints (fun l => l) (fun l => l) 20 ex_tree = Some fn /\ l <> [] /\
  (forall w, In w l -> w <> [] /\ ~ lang ex_tree w) /\ c_start (conf_log (log_footprints l) (of_tree fn)) = [9] /\
  fp_fitness (log_footprints l) (conf_log (log_footprints l) (of_tree fn)) = 1%Q.
Proof.
  eexists. exists [[9]]. split; [vm_compute; reflexivity|]. split; [discriminate|]. split.
  { intros w [<-|[]]. split; [discriminate|]. intros H. assert (Ht : fp_tree ex_tree) by (repeat constructor; cbn; auto; discriminate).
    destruct (min_len_spec ex_tree (fp_tree_wf _ Ht) (fp_plain _ Ht)) as [_ Hm]. specialize (Hm _ H). vm_compute in Hm. lia. }
  split; vm_compute; reflexivity.
Qed.
Print Assumptions C63_no_pairs_refuted.
(** The minimal length of an empty log is 0, so that it is not reported as fitting. *)
Theorem C63_empty_log_refuted : exists fn, tree_footprints (fun l => l) (fun l => l) 20 ex_tree = Some fn /\
  c_fit (conf_log (log_footprints []) (of_tree fn)) = false.
Proof. eexists. split; vm_compute; reflexivity. Qed.
Print Assumptions C63_empty_log_refuted.
