(** Writing and reading Petri nets (pm4py.write_pnml / pm4py.read_pnml):
    pm4py/objects/petri_net/exporter/variants/pnml.py (ex) and pm4py/objects/petri_net/importer/variants/pnml.py (im).

    XML elements are trees; the XML library (lxml) is not modelled: it is taken to return the tree that was written (labels and names are
    texts that XML can represent).  Places and transitions are identified with their names (no two places and no two transitions of a net have
    the same name).  Not modelled: properties of places, transitions and arcs (layout, place name tag, guards, variables, stochastic
    information), arc identifiers, stochastic arcs.  An exception is [None]. *)
From Coq Require Import String Ascii List Arith ZArith Bool.
Import ListNotations.
From Verif Require Import Model_Tree Model_Parse Model_Dict Model_DfgFile.
Local Open Scope list_scope.

Inductive xml := Elem (tag : text) (attrs : list (text * text)) (content : text) (kids : list xml).
Definition tag (e : xml) : text := match e with Elem t _ _ _ => t end.
Definition content (e : xml) : text := match e with Elem _ _ s _ => s end.
Definition kids (e : xml) : list xml := match e with Elem _ _ _ k => k end.
(** e.get(key) *)
Definition attr (e : xml) (k : text) : option text := match e with Elem _ a _ _ => d_get a k end.
Definition tx (s : string) : text := list_ascii_of_string s.
(** s.endswith(p) and p in s *)
Definition starts (p s : text) : bool := match after_prefix p s with Some _ => true | None => false end.
Definition ends (p s : text) : bool := starts (rev p) (rev s).
Fixpoint contains (p s : text) : bool := starts p s || match s with [] => false | _ :: r => contains p r end.

Inductive arc_type := Plain | Inhibitor | Reset.
(** [to_trans]: from the place to the transition, otherwise from the transition to the place *)
Record p_arc := PArc { to_trans : bool; a_place : text; a_trans : text; a_weight : Z; a_type : arc_type }.
Record p_net := PNet { p_places : list text; p_trans : list (text * option text); p_arcs : list p_arc }.
Definition p_marking := dict text Z.

(** ex 73-83 *)
Definition place_xml (im : p_marking) (p : text) : xml :=
  Elem (tx "place") [(tx "id", p)] []
    (Elem (tx "name") [] [] [Elem (tx "text") [] p []] ::
     match d_get im p with Some n => [Elem (tx "initialMarking") [] [] [Elem (tx "text") [] (print_int n) []]] | None => [] end).
(** ex 92-151; [node_id] is the random localNodeID; the logevent of ProM 5 (137-149): the label up to the first +, and the part after it *)
Definition trans_xml (prom5 : bool) (node_id : text) (t : text * option text) : xml :=
  Elem (tx "transition") [(tx "id", fst t)] []
    (Elem (tx "name") [] [] [Elem (tx "text") [] (match snd t with Some l => l | None => fst t end) []] ::
     match snd t with
     | Some l => if prom5 then
         [Elem (tx "toolspecific") [(tx "tool", tx "ProM"); (tx "version", tx "5.2")] []
           [Elem (tx "logevent") [] [] [Elem (tx "name") [] (hd [] (split_on (ascii_of_nat 43) l)) []; Elem (tx "type") [] (nth 1 (split_on (ascii_of_nat 43) l) (tx "complete")) []]]] else []
     | None => [Elem (tx "toolspecific") [(tx "tool", tx "ProM"); (tx "version", tx "6.4"); (tx "activity", tx "$invisible$"); (tx "localNodeID", node_id)] [] []]
     end).
(** ex 164-191 *)
Definition arc_xml (a : p_arc) : xml :=
  Elem (tx "arc") (if to_trans a then [(tx "source", a_place a); (tx "target", a_trans a)] else [(tx "source", a_trans a); (tx "target", a_place a)]) []
    ((if (1 <? a_weight a)%Z then [Elem (tx "inscription") [] [] [Elem (tx "text") [] (print_int (a_weight a)) []]] else []) ++
     match a_type a with
     | Plain => []
     | Reset => [Elem (tx "arctype") [] [] [Elem (tx "text") [] (tx "reset") []]]
     | Inhibitor => [Elem (tx "arctype") [] [] [Elem (tx "text") [] (tx "inhibitor") []]]
     end).
(** ex 193-201 *)
Definition final_xml (fm : p_marking) : list xml :=
  match fm with
  | [] => []
  | _ => [Elem (tx "finalmarkings") [] [] [Elem (tx "marking") [] [] (map (fun pn => Elem (tx "place") [(tx "idref", fst pn)] [] [Elem (tx "text") [] (print_int (snd pn)) []]) fm)]]
  end.
(** ex 32-215 export_petri_tree *)
Definition export (prom5 : bool) (node_id name : text) (net : p_net) (im fm : p_marking) : xml :=
  let items := map (place_xml im) (p_places net) ++ map (trans_xml prom5 node_id) (p_trans net) ++ map arc_xml (p_arcs net) in
  Elem (tx "pnml") [] []
    [Elem (tx "net") [(tx "id", name); (tx "type", tx "http://www.pnml.org/version-2009/grammar/pnmlcoremodel")] []
      (Elem (tx "name") [] [] [Elem (tx "text") [] name []] ::
       (if prom5 then items else [Elem (tx "page") [(tx "id", tx "n0")] [] items]) ++ final_xml fm)].

(** the last element with a property *)
Definition last_such (f : xml -> bool) (l : list xml) : option xml := fold_left (fun acc e => if f e then Some e else acc) l None.
(** im 165-168, 328-333, 366-370: the number in the last text element, if any *)
Definition text_number (e : xml) (d : option Z) : option (option Z) :=
  fold_left (fun (acc : option (option Z)) c => match acc with Some n => if ends (tx "text") (tag c) then option_map Some (read_int (content c)) else Some n | None => None end) (kids e) (Some d).
(** im 150-190: one place: its name and its number of tokens *)
Definition read_place (e : xml) : option (text * Z) :=
  match attr e (tx "id") with
  | None => None
  | Some i =>
    option_map (fun n : option Z => (i, match n with Some z => z | None => 0%Z end))
      (fold_left (fun (acc : option (option Z)) c => match acc with Some n => if ends (tx "initialMarking") (tag c) then text_number c n else Some n | None => None end) (kids e) (Some (Some 0%Z)))
  end.
(** im 192-295: one transition: its name and its label *)
Definition read_trans (e : xml) : option (text * option text) :=
  match attr e (tx "id") with
  | None => None
  | Some i =>
    option_map (fun nv : text * bool => (i, if snd nv then Some (fst nv) else None))
      (fold_left (fun (acc : option (text * bool)) c =>
        match acc with
        | None => None
        | Some (n, v) =>
          if ends (tx "name") (tag c) then Some (fold_left (fun n c3 => match content c3 with [] => n | s => if keqb n i then s else n end) (kids c) n, v)
          else if ends (tx "toolspecific") (tag c) then
            match attr c (tx "tool") with
            | None => None
            | Some tool => if contains (tx "ProM") tool
                           then match attr c (tx "activity") with None => None | Some act => Some (n, v && negb (contains (tx "invisible") act)) end
                           else Some (n, v)
            end
          else Some (n, v)
        end) (kids e) (Some (i, true)))
  end.
(** im 312-354: one arc, for a net of a class with inhibitor / reset arcs or not; [None] inside: the arc is ignored *)
Definition tmem (x : text) (l : list text) : bool := existsb (keqb x) l.
Definition read_type (s : option text) : arc_type := match s with Some s => if keqb s (tx "inhibitor") then Inhibitor else if keqb s (tx "reset") then Reset else Plain | None => Plain end.
Definition read_arc (ps ts : list text) (cls : bool * bool) (e : xml) : option (option p_arc * (bool * bool)) :=
  match fold_left (fun (acc : option (Z * option text)) c => match acc with
          | None => None
          | Some (w, ty) =>
            if ends (tx "inscription") (tag c) then option_map (fun n : option Z => (match n with Some z => z | None => w end, ty)) (text_number c (Some w))
            else if ends (tx "arctype") (tag c) then Some (w, fold_left (fun ty x => if ends (tx "text") (tag x) then Some (content x) else ty) (kids c) ty)
            else Some (w, ty)
          end) (kids e) (Some (1%Z, None)) with
  | None => None
  | Some (w, ty) =>
    match attr e (tx "source"), attr e (tx "target") with
    | Some s, Some t =>
      if tmem s ps && tmem t ts then
        let ty := read_type ty in
        Some (Some (PArc true s t w ty), match ty with Inhibitor => (true, snd cls) | Reset => (fst cls, true) | Plain => cls end)
      else if tmem t ps && tmem s ts then
        match read_type ty with
        | Inhibitor => if fst cls then Some (Some (PArc false t s w Inhibitor), cls) else None
        | Reset => if snd cls then Some (Some (PArc false t s w Reset), cls) else None
        | Plain => Some (Some (PArc false t s w Plain), cls)
        end
      else Some (None, cls)
    | _, _ => Some (None, cls)
    end
  end.
Fixpoint read_arcs (ps ts : list text) (l : list xml) (cls : bool * bool) : option (list p_arc * (bool * bool)) :=
  match l with
  | [] => Some ([], cls)
  | e :: r => match read_arc ps ts cls e with
              | None => None
              | Some (a, cls') => option_map (fun ac : list p_arc * (bool * bool) => (match a with Some x => x :: fst ac | None => fst ac end, snd ac)) (read_arcs ps ts r cls')
              end
  end.
(** im 361-372 *)
Definition read_final (ps : list text) (e : xml) : option p_marking :=
  fold_left (fun (acc : option p_marking) c2 => match acc, attr c2 (tx "idref") with
      | Some d, Some p => match text_number c2 None with
                          | Some (Some n) => if (0 <? n)%Z then (if tmem p ps then Some (d_set d p n) else None) else Some d
                          | Some None => Some d
                          | None => None
                          end
      | _, _ => None
      end) (flat_map kids (kids e)) (Some []).
(** objects/petri_net/utils/final_marking.py:20-40 discover_final_marking *)
Definition guess_final (net : p_net) : p_marking :=
  map (fun p => (p, 1%Z)) (filter (fun p => negb (existsb (fun a => to_trans a && keqb (a_place a) p) (p_arcs net))) (p_places net)).
(** im 101-395 import_net_from_xml_object: the net, whether it is an InhibitorNet and a ResetNet, the initial and the final marking *)
Definition import (root : xml) : option (p_net * (bool * bool) * p_marking * p_marking) :=
  match last_such (fun _ => true) (kids root) with
  | None => Some (PNet [] [] [], (false, false), [], [])
  | Some nett =>
    let page := match last_such (fun e => contains (tx "page") (tag e)) (kids nett) with Some p => p | None => nett end in
    let fin := last_such (fun e => contains (tx "finalmarkings") (tag e)) (kids nett) in
    match map_opt read_place (filter (fun e => contains (tx "place") (tag e)) (kids page)),
          map_opt read_trans (filter (fun e => ends (tx "transition") (tag e)) (kids page)) with
    | Some ps, Some ts =>
      let im := fold_left (fun d (pn : text * Z) => if (0 <? snd pn)%Z then d_set d (fst pn) (snd pn) else d) ps [] in
      match read_arcs (map fst ps) (map fst ts) (filter (fun e => ends (tx "arc") (tag e)) (kids page)) (false, false) with
      | None => None
      | Some (arcs, cls) =>
        let net := PNet (map fst ps) ts arcs in
        match fin with
        | None => Some (net, cls, im, guess_final net)
        | Some f => option_map (fun fm => (net, cls, im, fm)) (read_final (map fst ps) f)
        end
      end
    | _, _ => None
    end
  end.
