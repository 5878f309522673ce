(** C90: saving and loading Petri nets. *)
From Coq Require Import String Ascii List Arith ZArith Bool Lia.
Import ListNotations.
From Verif Require Import Model_Tree Model_Parse Model_Dict Model_DfgFile Model_Pnml Spec_Pnml Proofs_Dict Proofs_DfgFile.
Local Open Scope list_scope.
Local Arguments print_int : simpl never.
Local Arguments read_int : simpl never.

Lemma text_eqb_refl (x : text) : keqb x x = true.
Proof. destruct (keqb_spec x x); congruence. Qed.
Lemma tmem_in x l : tmem x l = true <-> In x l.
Proof. unfold tmem. rewrite existsb_exists. split; [intros (y & Hy & E); destruct (keqb_spec x y); congruence|intros Hx; exists x; split; auto; apply text_eqb_refl]. Qed.
Lemma tmem_false x l : tmem x l = false <-> ~ In x l.
Proof. rewrite <- tmem_in. destruct (tmem x l); split; congruence. Qed.
Lemma text_number_one s z tg a : read_int s = Some z -> forall d, text_number (Elem tg a [] [Elem (tx "text") [] s []]) d = Some (Some z).
Proof. intros E d. unfold text_number. cbn [kids fold_left tag content]. change (ends (tx "text") (tx "text")) with true. cbn [option_map]. rewrite E. reflexivity. Qed.
Lemma place_read im p : read_place (place_xml im p) = Some (p, match d_get im p with Some n => n | None => 0%Z end).
Proof.
  unfold read_place, place_xml. change (attr _ (tx "id")) with (Some p). cbn [kids fold_left tag]. change (ends (tx "initialMarking") (tx "name")) with false. cbn [fold_left].
  destruct (d_get im p) as [n|]; [|reflexivity]. cbn [fold_left tag]. change (ends (tx "initialMarking") (tx "initialMarking")) with true. cbv iota. rewrite (text_number_one _ n) by apply read_print. reflexivity.
Qed.
Lemma trans_read node_id t : snd t <> Some [] -> read_trans (trans_xml false node_id t) = Some t.
Proof.
  intros Hl. destruct t as [i [l|]]; unfold read_trans, trans_xml; cbn [fst snd]; change (attr _ (tx "id")) with (Some i); cbn [kids fold_left tag]; change (ends (tx "name") (tx "name")) with true; cbv iota; cbn [kids fold_left content].
  - destruct l as [|c l]; [cbn in Hl; congruence|]. rewrite text_eqb_refl. reflexivity.
  - change (ends (tx "name") (tx "toolspecific")) with false. change (ends (tx "toolspecific") (tx "toolspecific")) with true. cbv iota.
    change (attr _ (tx "tool")) with (Some (tx "ProM")). change (contains (tx "ProM") (tx "ProM")) with true. cbv iota. change (attr _ (tx "activity")) with (Some (tx "$invisible$")). change (contains (tx "invisible") (tx "$invisible$")) with true. cbn [andb negb option_map snd]. reflexivity.
Qed.
Definition raise_cls (ty : arc_type) (cls : bool * bool) : bool * bool := match ty with Inhibitor => (true, snd cls) | Reset => (fst cls, true) | Plain => cls end.
Lemma arc_parts a : (1 <= a_weight a)%Z -> exists ty, read_type ty = a_type a /\
  fold_left (fun (acc : option (Z * option text)) c => match acc with
          | None => None
          | Some (w, ty) =>
            if ends (tx "inscription") (tag c) then option_map (fun n : option Z => (match n with Some z => z | None => w end, ty)) (text_number c (Some w))
            else if ends (tx "arctype") (tag c) then Some (w, fold_left (fun ty x => if ends (tx "text") (tag x) then Some (content x) else ty) (kids c) ty)
            else Some (w, ty)
          end) (kids (arc_xml a)) (Some (1%Z, None)) = Some (a_weight a, ty).
Proof.
  intros Hw. destruct a as [tt p t w ty]. cbn in Hw. unfold arc_xml. cbn [kids a_weight a_type].
  exists (match ty with Plain => None | Reset => Some (tx "reset") | Inhibitor => Some (tx "inhibitor") end). split; [destruct ty; reflexivity|]. rewrite fold_left_app.
  assert (E1 : forall z, fold_left (fun (acc : option (Z * option text)) c => match acc with
          | None => None
          | Some (w, ty) =>
            if ends (tx "inscription") (tag c) then option_map (fun n : option Z => (match n with Some z => z | None => w end, ty)) (text_number c (Some w))
            else if ends (tx "arctype") (tag c) then Some (w, fold_left (fun ty x => if ends (tx "text") (tag x) then Some (content x) else ty) (kids c) ty)
            else Some (w, ty)
          end) match ty with
     | Plain => []
     | Reset => [Elem (tx "arctype") [] [] [Elem (tx "text") [] (tx "reset") []]]
     | Inhibitor => [Elem (tx "arctype") [] [] [Elem (tx "text") [] (tx "inhibitor") []]]
     end (Some (z, None)) = Some (z, match ty with Plain => None | Reset => Some (tx "reset") | Inhibitor => Some (tx "inhibitor") end)) by (intros z; destruct ty; reflexivity).
  destruct (Z.ltb_spec 1 w) as [L|L].
  - cbn [fold_left tag]. change (ends (tx "inscription") (tx "inscription")) with true. cbv iota. rewrite (text_number_one _ w) by apply read_print. cbn [option_map]. apply E1.
  - assert (w = 1%Z) as -> by lia. cbn [fold_left]. apply E1.
Qed.
Lemma arc_read ps ts cls a : (1 <= a_weight a)%Z -> In (a_place a) ps -> In (a_trans a) ts -> (to_trans a = false -> a_type a = Plain /\ ~ (In (a_trans a) ps /\ In (a_place a) ts)) ->
  read_arc ps ts cls (arc_xml a) = Some (Some a, raise_cls (a_type a) cls).
Proof.
  intros Hw Hp Ht Hn. destruct (arc_parts a Hw) as (ty & Ety & E). unfold read_arc. rewrite E. apply tmem_in in Hp as Mp. apply tmem_in in Ht as Mt.
  destruct a as [[] p t w ty']; cbn in *.
  - change (attr _ (tx "source")) with (Some p). change (attr _ (tx "target")) with (Some t). rewrite Mp, Mt. cbn [andb]. rewrite Ety. destruct ty'; reflexivity.
  - destruct (Hn eq_refl) as [-> Hx]. change (attr _ (tx "source")) with (Some t). change (attr _ (tx "target")) with (Some p). rewrite Mp, Mt. cbn [andb].
    destruct (tmem t ps && tmem p ts) eqn:B; [apply andb_true_iff in B as [B1 B2]; rewrite tmem_in in B1, B2; tauto|]. rewrite Ety. reflexivity.
Qed.
Lemma arcs_read ps ts l : (forall a, In a l -> (1 <= a_weight a)%Z /\ In (a_place a) ps /\ In (a_trans a) ts /\ (to_trans a = false -> a_type a = Plain /\ ~ (In (a_trans a) ps /\ In (a_place a) ts))) ->
  forall cls, read_arcs ps ts (map arc_xml l) cls = Some (l, fold_left (fun c a => raise_cls (a_type a) c) l cls).
Proof.
  induction l as [|a l IH]; intros Hl cls; [reflexivity|]. destruct (Hl a (or_introl eq_refl)) as (A & B & C & D). cbn [map read_arcs fold_left]. rewrite (arc_read ps ts cls a A B C D). rewrite IH by (intros; apply Hl; right; auto). reflexivity.
Qed.
Lemma cls_ok l : forall cls, let c := fold_left (fun c a => raise_cls (a_type a) c) l cls in
  (fst c = true <-> fst cls = true \/ exists a, In a l /\ a_type a = Inhibitor) /\ (snd c = true <-> snd cls = true \/ exists a, In a l /\ a_type a = Reset).
Proof.
  induction l as [|a l IH]; intros cls; [cbn; split; (split; [auto|intros [?|(? & [] & _)]; auto])|]. cbn [fold_left]. destruct (IH (raise_cls (a_type a) cls)) as [A B]. split; [rewrite A|rewrite B].
  - split; [intros [X|(b & Hb & Tb)]; [destruct (a_type a) eqn:T; cbn in X; auto; right; exists a; split; [left; auto|auto]|right; exists b; split; [right; auto|auto]]|intros [X|(b & [<-|Hb] & Tb)]; [left; destruct (a_type a); cbn; auto|left; rewrite Tb; auto|right; eauto]].
  - split; [intros [X|(b & Hb & Tb)]; [destruct (a_type a) eqn:T; cbn in X; auto; right; exists a; split; [left; auto|auto]|right; exists b; split; [right; auto|auto]]|intros [X|(b & [<-|Hb] & Tb)]; [left; destruct (a_type a); cbn; auto|left; rewrite Tb; auto|right; eauto]].
Qed.
Lemma filter_tag {X} (f : xml -> bool) (g : X -> xml) (b : bool) l : (forall x, f (g x) = b) -> filter f (map g l) = if b then map g l else [].
Proof. intros E. induction l as [|x l IH]; [destruct b; auto|]. cbn [map filter]. rewrite E, IH. destruct b; auto. Qed.
Lemma map_opt_ext {X Y} (f : X -> option Y) (g : X -> Y) l : (forall x, In x l -> f x = Some (g x)) -> map_opt f l = Some (map g l).
Proof. induction l as [|x l IH]; intros E; [reflexivity|]. cbn. rewrite (E x) by (left; auto). rewrite IH by (intros; apply E; right; auto). reflexivity. Qed.
Lemma map_opt_map_in {X Y W} (f : Y -> option W) (h : X -> Y) (g : X -> W) l : (forall x, In x l -> f (h x) = Some (g x)) -> map_opt f (map h l) = Some (map g l).
Proof. induction l as [|x l IH]; intros E; [reflexivity|]. cbn. rewrite (E x) by (left; auto). rewrite IH by (intros; apply E; right; auto). reflexivity. Qed.
Lemma initial_read im : forall ps acc, (forall p, In p ps -> d_get acc p = None) -> NoDup ps -> (forall p n, d_get im p = Some n -> (0 < n)%Z) ->
  forall q, d_get (fold_left (fun d (pn : text * Z) => if (0 <? snd pn)%Z then d_set d (fst pn) (snd pn) else d) (map (fun p => (p, match d_get im p with Some n => n | None => 0%Z end)) ps) acc) q =
    if tmem q ps then d_get im q else d_get acc q.
Proof.
  induction ps as [|p ps IH]; intros acc Ha Hn Hp q; [reflexivity|]. inversion Hn as [|? ? Hni Hn']; subst. cbn [map fold_left fst snd].
  assert (Tq : tmem q (p :: ps) = keqb q p || tmem q ps) by reflexivity. rewrite Tq. destruct (d_get im p) as [n|] eqn:E.
  - destruct (Z.ltb_spec 0 n) as [L|L]; [|specialize (Hp p n E); lia]. rewrite IH; auto.
    + destruct (keqb_spec q p) as [->|Hne]; cbn [orb].
      * destruct (tmem p ps) eqn:T; [apply tmem_in in T; contradiction|]. rewrite d_get_set. destruct (keqb_spec p p); [auto|congruence].
      * destruct (tmem q ps); auto. rewrite d_get_set. destruct (keqb_spec p q); [congruence|auto].
    + intros r Hr. rewrite d_get_set. destruct (keqb_spec p r) as [->|]; [contradiction|]. apply Ha. right. auto.
  - change (0 <? 0)%Z with false. cbv iota. rewrite IH; auto; [|intros r Hr; apply Ha; right; auto]. destruct (keqb_spec q p) as [->|Hne]; cbn [orb]; auto. rewrite E. destruct (tmem p ps); auto. apply Ha. left. auto.
Qed.
Lemma final_read ps fm : NoDup (map fst fm) -> (forall p n, In (p, n) fm -> In p ps /\ (0 < n)%Z) -> forall acc : p_marking, (forall p, In p (map fst fm) -> ~ In p (map fst acc)) ->
  fold_left (fun (acc : option p_marking) c2 => match acc, attr c2 (tx "idref") with
      | Some d, Some p => match text_number c2 None with
                          | Some (Some n) => if (0 <? n)%Z then (if tmem p ps then Some (d_set d p n) else None) else Some d
                          | Some None => Some d
                          | None => None
                          end
      | _, _ => None
      end) (map (fun pn => Elem (tx "place") [(tx "idref", fst pn)] [] [Elem (tx "text") [] (print_int (snd pn)) []]) fm) (Some acc) = Some (acc ++ fm).
Proof.
  induction fm as [|[p n] fm IH]; intros Hn Hf acc Ha; [cbn; rewrite app_nil_r; auto|]. cbn [map fold_left fst snd]. change (attr (Elem (tx "place") [(tx "idref", p)] [] [Elem (tx "text") [] (print_int n) []]) (tx "idref")) with (Some p).
  rewrite (text_number_one _ n) by apply read_print. destruct (Hf p n (or_introl eq_refl)) as [Hp Hpos]. apply tmem_in in Hp. apply Z.ltb_lt in Hpos. rewrite Hpos, Hp. inversion Hn as [|? ? Hni Hn']; subst.
  rewrite d_set_new by (apply Ha; left; auto). rewrite IH; auto; [rewrite <- app_assoc; auto|intros q m Hq; apply Hf; right; auto|].
  intros q Hq. rewrite map_app, in_app_iff. intros [Hx|[<-|[]]]; [apply (Ha q); [right; auto|auto]|contradiction].
Qed.
Lemma items_places prom5 node_id net im : filter (fun e => contains (tx "place") (tag e)) (map (place_xml im) (p_places net) ++ map (trans_xml prom5 node_id) (p_trans net) ++ map arc_xml (p_arcs net)) = map (place_xml im) (p_places net).
Proof. rewrite !filter_app, (filter_tag _ (place_xml im) true), (filter_tag _ (trans_xml prom5 node_id) false), (filter_tag _ arc_xml false), !app_nil_r; auto. Qed.
Lemma items_trans prom5 node_id net im : filter (fun e => ends (tx "transition") (tag e)) (map (place_xml im) (p_places net) ++ map (trans_xml prom5 node_id) (p_trans net) ++ map arc_xml (p_arcs net)) = map (trans_xml prom5 node_id) (p_trans net).
Proof. rewrite !filter_app, (filter_tag _ (place_xml im) false), (filter_tag _ (trans_xml prom5 node_id) true), (filter_tag _ arc_xml false), !app_nil_r; auto. Qed.
Lemma items_arcs prom5 node_id net im : filter (fun e => ends (tx "arc") (tag e)) (map (place_xml im) (p_places net) ++ map (trans_xml prom5 node_id) (p_trans net) ++ map arc_xml (p_arcs net)) = map arc_xml (p_arcs net).
Proof. rewrite !filter_app, (filter_tag _ (place_xml im) false), (filter_tag _ (trans_xml prom5 node_id) false), (filter_tag _ arc_xml true); auto. Qed.
Lemma in_d_get (m : p_marking) p n : NoDup (map fst m) -> (d_get m p = Some n <-> In (p, n) m).
Proof.
  induction m as [|[q k] m IH]; intros Hn; [cbn; split; [discriminate|contradiction]|]. inversion Hn as [|? ? Hni Hn']; subst. cbn [d_get]. destruct (keqb_spec q p) as [->|Hne].
  - split; [intros [= <-]; left; auto|intros [[= ->]|Hin]; auto]. exfalso. apply Hni. apply in_map_iff. exists (p, n). auto.
  - rewrite IH by auto. split; [right; auto|intros [[= <- <-]|]; [congruence|auto]].
Qed.
Lemma read_final_ok ps fm : NoDup (map fst fm) -> (forall p n, In (p, n) fm -> In p ps /\ (0 < n)%Z) ->
  read_final ps (Elem (tx "finalmarkings") [] [] [Elem (tx "marking") [] [] (map (fun pn => Elem (tx "place") [(tx "idref", fst pn)] [] [Elem (tx "text") [] (print_int (snd pn)) []]) fm)]) = Some fm.
Proof. intros A B. unfold read_final. cbn [kids flat_map]. rewrite app_nil_r. apply (final_read ps fm A B []). intros p _ []. Qed.
(** Reading back a written net returns the same net (with the class its arcs need), the same initial marking and the same final marking. *)
Theorem C90_pnml_roundtrip : forall node_id name net im fm, storable net -> marking_of net im -> marking_of net fm -> fm <> [] ->
  exists inh res im', import (export false node_id name net im fm) = Some (net, (inh, res), im', fm) /\ (forall p, d_get im' p = d_get im p) /\
    (inh = true <-> has_arc net Inhibitor) /\ (res = true <-> has_arc net Reset).
Proof.
  intros node_id name net im fm (N1 & N2 & Ha & Hl) (M1 & M2) (F1 & F2) Hne.
  set (cls := fold_left (fun c a => raise_cls (a_type a) c) (p_arcs net) (false, false)). exists (fst cls), (snd cls).
  set (im' := fold_left (fun d (pn : text * Z) => if (0 <? snd pn)%Z then d_set d (fst pn) (snd pn) else d) (map (fun p => (p, match d_get im p with Some n => n | None => 0%Z end)) (p_places net)) []).
  exists im'. split; [|split; [|split]].
  - unfold import, export. set (items := map (place_xml im) (p_places net) ++ map (trans_xml false node_id) (p_trans net) ++ map arc_xml (p_arcs net)). cbn [kids last_such fold_left].
    destruct fm as [|f fm]; [congruence|]. cbv iota. unfold final_xml. set (fin := Elem (tx "finalmarkings") [] [] _). cbn [app kids last_such fold_left tag].
    change (contains (tx "page") (tx "name")) with false. change (contains (tx "page") (tx "page")) with true. change (contains (tx "page") (tag fin)) with false. change (contains (tx "finalmarkings") (tx "name")) with false. change (contains (tx "finalmarkings") (tx "page")) with false. change (contains (tx "finalmarkings") (tag fin)) with true. cbv iota.
    cbn [kids]. unfold items. rewrite items_places, items_trans, items_arcs.
    rewrite (map_opt_map_in read_place (place_xml im) (fun p => (p, match d_get im p with Some n => n | None => 0%Z end))) by (intros; apply place_read).
    rewrite (map_opt_map_in read_trans (trans_xml false node_id) (fun t => t)) by (intros t Ht; apply trans_read; auto). rewrite map_id. cbv beta iota. rewrite !map_map. cbn [fst]. rewrite map_id.
    rewrite arcs_read by (intros a Hin; destruct (Ha a Hin) as (A & B & C & D); auto). fold cls. fold im'.
    rewrite (read_final_ok (p_places net) (f :: fm) F1 F2 : read_final _ fin = _). cbn [option_map].
    rewrite <- surjective_pairing. destruct net as [ps ts l]. reflexivity.
  - intros p. unfold im'. rewrite initial_read; auto; [|intros q n Hq; apply in_d_get in Hq; auto; eapply M2; eauto]. destruct (tmem p (p_places net)) eqn:T; auto. cbn [d_get]. destruct (d_get im p) as [n|] eqn:E; auto. apply in_d_get in E; auto. apply M2 in E as [E _]. apply tmem_in in E. congruence.
  - unfold cls. rewrite (proj1 (cls_ok (p_arcs net) (false, false))). unfold has_arc. cbn. split; [intros [X|X]; [discriminate|auto]|auto].
  - unfold cls. rewrite (proj2 (cls_ok (p_arcs net) (false, false))). unfold has_arc. cbn. split; [intros [X|X]; [discriminate|auto]|auto].
Qed.
Print Assumptions C90_pnml_roundtrip.
(** With an empty final marking the importer guesses one: the places without outgoing arcs. *)
Theorem C90_empty_final_guessed : forall node_id name net im, storable net -> marking_of net im ->
  exists cls im' fm', import (export false node_id name net im []) = Some (net, cls, im', fm') /\ (forall p, d_get im' p = d_get im p) /\
    (forall p n, In (p, n) fm' <-> n = 1%Z /\ In p (p_places net) /\ ~ exists a, In a (p_arcs net) /\ to_trans a = true /\ a_place a = p).
Proof.
  intros node_id name net im (N1 & N2 & Ha & Hl) (M1 & M2).
  set (cls := fold_left (fun c a => raise_cls (a_type a) c) (p_arcs net) (false, false)). exists cls.
  set (im' := fold_left (fun d (pn : text * Z) => if (0 <? snd pn)%Z then d_set d (fst pn) (snd pn) else d) (map (fun p => (p, match d_get im p with Some n => n | None => 0%Z end)) (p_places net)) []).
  exists im', (guess_final net). split; [|split].
  - unfold import, export. set (items := map (place_xml im) (p_places net) ++ map (trans_xml false node_id) (p_trans net) ++ map arc_xml (p_arcs net)). cbn [kids last_such fold_left].
    unfold final_xml. cbn [app kids last_such fold_left tag].
    change (contains (tx "page") (tx "name")) with false. change (contains (tx "page") (tx "page")) with true. change (contains (tx "finalmarkings") (tx "name")) with false. change (contains (tx "finalmarkings") (tx "page")) with false. cbv iota.
    cbn [kids]. unfold items. rewrite items_places, items_trans, items_arcs.
    rewrite (map_opt_map_in read_place (place_xml im) (fun p => (p, match d_get im p with Some n => n | None => 0%Z end))) by (intros; apply place_read).
    rewrite (map_opt_map_in read_trans (trans_xml false node_id) (fun t => t)) by (intros t Ht; apply trans_read; auto). rewrite map_id. cbv beta iota. rewrite !map_map. cbn [fst]. rewrite map_id.
    rewrite arcs_read by (intros a Hin; destruct (Ha a Hin) as (A & B & C & D); auto). fold cls. fold im'. destruct net as [ps ts l]. reflexivity.
  - intros p. unfold im'. rewrite initial_read; auto; [|intros q n Hq; apply in_d_get in Hq; auto; eapply M2; eauto]. destruct (tmem p (p_places net)) eqn:T; auto. cbn [d_get]. destruct (d_get im p) as [n|] eqn:E; auto. apply in_d_get in E; auto. apply M2 in E as [E _]. apply tmem_in in E. congruence.
  - intros p n. unfold guess_final. rewrite in_map_iff. setoid_rewrite filter_In. split.
    + intros (q & [= <- <-] & Hq & G). repeat split; auto. intros (a & Hin & Ta & Pa). apply negb_true_iff in G. assert (X : existsb (fun a0 => to_trans a0 && keqb (a_place a0) q) (p_arcs net) = true) by (apply existsb_exists; exists a; rewrite Ta, Pa, text_eqb_refl; auto). congruence.
    + intros (-> & Hp & G). exists p. split; [auto|]. split; auto. apply negb_true_iff. destruct (existsb _ _) eqn:E; auto. exfalso. apply G. apply existsb_exists in E as (a & Hin & X). apply andb_true_iff in X as [X Y]. exists a. destruct (keqb_spec (a_place a) p); [auto|discriminate].
Qed.
Print Assumptions C90_empty_final_guessed.
(** A file written for ProM 5 cannot be read back as soon as the net has a visible transition: the importer looks up an attribute the exporter does not write. *)
Lemma map_opt_none {X Y} (f : X -> option Y) l x : In x l -> f x = None -> map_opt f l = None.
Proof. induction l as [|y l IH]; intros Hin E; [destruct Hin|]. cbn. destruct Hin as [->|Hin]; [rewrite E; auto|]. rewrite (IH Hin E). destruct (f y); auto. Qed.
Lemma last_none f l : (forall e, In e l -> f e = false) -> last_such f l = None.
Proof.
  intros H. unfold last_such. assert (G : forall acc : option xml, fold_left (fun acc e => if f e then Some e else acc) l acc = acc); [|apply G].
  induction l as [|e l IH]; intros acc; [reflexivity|]. cbn. rewrite (H e) by (left; auto). apply IH. intros e' He'. apply H. right. auto.
Qed.
Theorem C90_prom5_unreadable : forall node_id name net im fm i l, In (i, Some l) (p_trans net) -> import (export true node_id name net im fm) = None.
Proof.
  intros node_id name net im fm i l Hin. unfold import, export. set (items := map (place_xml im) (p_places net) ++ map (trans_xml true node_id) (p_trans net) ++ map arc_xml (p_arcs net)).
  cbn [kids]. match goal with |- context [last_such _ [?e]] => change (last_such (fun _ => true) [e]) with (Some e) end. cbv iota. cbn [kids]. set (all := Elem (tx "name") [] [] [Elem (tx "text") [] name []] :: items ++ final_xml fm).
  rewrite (last_none (fun e => contains (tx "page") (tag e)) all).
  - cbn [kids]. assert (Hx : In (trans_xml true node_id (i, Some l)) (filter (fun e => ends (tx "transition") (tag e)) all)).
    { apply filter_In. split; [|reflexivity]. right. apply in_app_iff. left. unfold items. rewrite !in_app_iff. right. left. apply in_map_iff. eauto. }
    rewrite (map_opt_none read_trans _ _ Hx); [destruct (map_opt read_place _); reflexivity|].
    unfold read_trans, trans_xml. cbn [fst snd]. change (attr _ (tx "id")) with (Some i). cbn [kids fold_left tag].
    change (ends (tx "name") (tx "name")) with true. change (ends (tx "name") (tx "toolspecific")) with false. change (ends (tx "toolspecific") (tx "toolspecific")) with true. cbv iota.
    change (attr _ (tx "tool")) with (Some (tx "ProM")). change (contains (tx "ProM") (tx "ProM")) with true. cbv iota.
    change (attr _ (tx "activity")) with (@None text). reflexivity.
  - intros e [<-|He]; [reflexivity|]. apply in_app_iff in He as [He|He].
    + unfold items in He. rewrite !in_app_iff, !in_map_iff in He. destruct He as [(x & <- & _)|[(x & <- & _)|(x & <- & _)]]; reflexivity.
    + destruct fm; [destruct He|]. destruct He as [<-|[]]. reflexivity.
Qed.
Print Assumptions C90_prom5_unreadable.

(** p (2 tokens) -2-> a -> q, a silent transition reading an inhibitor arc from q, a reset arc. *)
Definition ex_pnml : p_net := PNet [tx "p"; tx "q"; tx "r"] [(tx "t1", Some (tx "a")); (tx "t2", None); (tx "p", Some (tx "b"))]
  [PArc true (tx "p") (tx "t1") 2 Plain; PArc false (tx "q") (tx "t1") 1 Plain; PArc true (tx "q") (tx "t2") 1 Inhibitor; PArc false (tx "r") (tx "t2") 3 Plain; PArc true (tx "q") (tx "p") 1 Reset].
Example ex_pnml_storable : storable ex_pnml /\ marking_of ex_pnml [(tx "p", 2%Z)] /\ marking_of ex_pnml [(tx "q", 1%Z); (tx "r", 3%Z)].
Proof.
  assert (N1 : NoDup (p_places ex_pnml)) by (repeat constructor; cbn; intuition discriminate).
  split; [|split].
  - split; [exact N1|]. split; [repeat constructor; cbn; intuition discriminate|]. split.
    + intros a [<-|[<-|[<-|[<-|[<-|[]]]]]]; (split; [cbn; tauto|split; [cbn; tauto|split; [cbn; lia|]]]); cbn; intros X; try discriminate X; (split; [reflexivity|]); intros [A B]; intuition discriminate.
    + intros t [<-|[<-|[<-|[]]]]; discriminate.
  - split; [repeat constructor; cbn; intuition|]. intros p n [[= <- <-]|[]]. cbn. split; [tauto|lia].
  - split; [repeat constructor; cbn; intuition discriminate|]. intros p n [[= <- <-]|[[= <- <-]|[]]]; cbn; (split; [tauto|lia]).
Qed.
Example ex_pnml_read : exists im', import (export false (tx "1") (tx "n") ex_pnml [(tx "p", 2%Z)] [(tx "q", 1%Z); (tx "r", 3%Z)]) = Some (ex_pnml, (true, true), im', [(tx "q", 1%Z); (tx "r", 3%Z)]).
Proof. eexists. vm_compute. reflexivity. Qed.
(** An empty label becomes the transition's name. *)
Theorem C90_empty_label_refuted : exists net, import (export false (tx "1") (tx "n") net [] [(tx "p", 1%Z)]) = Some (PNet [tx "p"] [(tx "t", Some (tx "t"))] [], (false, false), [], [(tx "p", 1%Z)]) /\ p_trans net = [(tx "t", Some [])].
Proof. exists (PNet [tx "p"] [(tx "t", Some [])] []). split; [vm_compute|]; reflexivity. Qed.
Print Assumptions C90_empty_label_refuted.
