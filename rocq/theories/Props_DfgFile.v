(** C61: export and import of directly-follows graphs. *)
From Coq Require Import String Ascii List Arith ZArith Bool Permutation.
Import ListNotations.
From Verif Require Import Model_Parse Model_Dict Model_DfgFile Proofs_DfgFile.
Local Open Scope list_scope.

(** Whatever the enumeration order of the set of activities: what is written is read back unchanged (also in the
    order of the dictionaries), from a string and from a file, if the activity names contain no line break and have no
    white space at their ends. *)
Theorem C61_round_trip (ord : list text -> list text) (g : dict (text * text) Z) (sa ea : dict text Z) (s : text) :
  (forall l, Permutation (ord l) l) -> NoDup (d_keys g) -> NoDup (d_keys sa) -> NoDup (d_keys ea) ->
  (forall a b, In (a, b) (d_keys g) -> forall x, x = a \/ x = b ->
     strip x = x /\ forall c, In c x -> c <> "010"%char /\ c <> "013"%char) ->
  export_string ord g sa ea = Some s ->
  import_string s = Some (g, sa, ea) /\ import_file s = Some (g, sa, ea).
Proof.
  intros Ho Hg Hs He Hp E. apply (import_export ord Ho g sa ea Hg Hs He); [|exact E].
  intros [a b] Hin. split; apply (Hp a b Hin); auto.
Qed.

(** The export succeeds exactly if there are start and end activities and they all occur in the graph. *)
Theorem C61_export_succeeds (ord : list text -> list text) (g : dict (text * text) Z) (sa ea : dict text Z) :
  (forall l, Permutation (ord l) l) ->
  (exists s, export_string ord g sa ea = Some s) <->
  sa <> [] /\ ea <> [] /\ forall a, In a (d_keys sa) \/ In a (d_keys ea) -> exists b, In (a, b) (d_keys g) \/ In (b, a) (d_keys g).
Proof.
  intros Ho. split.
  - intros (s & E). destruct (export_none ord Ho g sa ea s E) as (H1 & H2 & H3). split; [exact H1|]. split; [exact H2|].
    intros a Ha. destruct (H3 a Ha) as ([x y] & Hin & [->| ->]); [exists y|exists x]; auto.
  - intros (H1 & H2 & H3). apply (export_total ord Ho g sa ea H1 H2). intros a Ha. destruct (H3 a Ha) as (b & [Hb|Hb]); [exists (a, b)|exists (b, a)]; auto.
Qed.

(** Two different graphs never give the same file. *)
Theorem C61_injective ord1 ord2 g1 sa1 ea1 g2 sa2 ea2 (s : text) :
  (forall l, Permutation (ord1 l) l) -> (forall l, Permutation (ord2 l) l) ->
  NoDup (d_keys g1) -> NoDup (d_keys sa1) -> NoDup (d_keys ea1) -> NoDup (d_keys g2) -> NoDup (d_keys sa2) -> NoDup (d_keys ea2) ->
  (forall a b, In (a, b) (d_keys g1) \/ In (a, b) (d_keys g2) -> forall x, x = a \/ x = b ->
     strip x = x /\ forall c, In c x -> c <> "010"%char /\ c <> "013"%char) ->
  export_string ord1 g1 sa1 ea1 = Some s -> export_string ord2 g2 sa2 ea2 = Some s -> g1 = g2 /\ sa1 = sa2 /\ ea1 = ea2.
Proof.
  intros Ho1 Ho2 N1 N2 N3 N4 N5 N6 Hp E1 E2.
  destruct (C61_round_trip ord1 g1 sa1 ea1 s Ho1 N1 N2 N3) as [R1 _]; [|exact E1|]. { intros a b Hab. apply (Hp a b). auto. }
  destruct (C61_round_trip ord2 g2 sa2 ea2 s Ho2 N4 N5 N6) as [R2 _]; [|exact E2|]. { intros a b Hab. apply (Hp a b). auto. }
  rewrite R1 in R2. injection R2 as -> -> ->. auto.
Qed.

Definition txt := list_ascii_of_string.
(** Names with white space at the ends come back changed. *)
Theorem C61_spaces_refuted : exists g sa ea s g' sa' ea',
  export_string (fun l => l) g sa ea = Some s /\ import_string s = Some (g', sa', ea') /\ g <> g'.
Proof.
  exists [((txt " a", txt "b"), 1%Z)], [(txt " a", 1%Z)], [(txt "b", 1%Z)]. do 4 eexists.
  split; [vm_compute; reflexivity|]. split; [vm_compute; reflexivity|]. vm_compute. discriminate.
Qed.
(** The directly-follows graph of the log {<a>, <a, b>, <c>} cannot be exported: c is in no edge. *)
Theorem C61_isolated_activity_refuted : forall ord, (forall l, Permutation (ord l) l) ->
  export_string ord [((txt "a", txt "b"), 1%Z)] [(txt "a", 2%Z); (txt "c", 1%Z)] [(txt "a", 1%Z); (txt "b", 1%Z); (txt "c", 1%Z)] = None.
Proof.
  intros ord Ho. destruct (export_string _ _ _ _) as [s|] eqn:E; [|reflexivity]. exfalso.
  apply (export_none ord Ho) in E as (_ & _ & H). destruct (H (txt "c")) as (e & [<-|[]] & [Hx|Hx]); [left; right; left; reflexivity| |]; discriminate.
Qed.

Example export_example :
  export_string (@rev text) [((txt "register request", txt "x>y"), 12%Z); ((txt "x>y", txt "x>y"), 3%Z)] [(txt "register request", 12%Z)] [(txt "x>y", 12%Z)]
  = Some (txt "2
x>y
register request
1
1x12
1
0x12
1>0x12
0>0x3
").
Proof. vm_compute. reflexivity. Qed.
Example round_trip_example : let g := [((txt "register request", txt "x>y"), 12%Z); ((txt "x>y", txt "x>y"), 3%Z)] in
  forall a b, In (a, b) (d_keys g) -> forall x, x = a \/ x = b -> strip x = x /\ forall c, In c x -> c <> "010"%char /\ c <> "013"%char.
Proof.
  assert (H : Forall (fun x => strip x = x /\ Forall (fun c => c <> "010"%char /\ c <> "013"%char) x) [txt "register request"; txt "x>y"]).
  { repeat constructor; try discriminate. }
  rewrite Forall_forall in H. cbv zeta. intros a b Hab x Hx.
  assert (Hin : In x [txt "register request"; txt "x>y"]).
  { destruct Hab as [E|[E|[]]]; injection E as <- <-; destruct Hx as [->| ->]; cbn; auto. }
  destruct (H x Hin) as [H1 H2]. rewrite Forall_forall in H2. auto.
Qed.
Print Assumptions C61_round_trip.
Print Assumptions C61_export_succeeds.
Print Assumptions C61_injective.
Print Assumptions C61_spaces_refuted.
Print Assumptions C61_isolated_activity_refuted.
