(** artifact-frontend/src: what a page of the web client shows (nav.rs, artifact.rs, edit.rs, name.rs
    and [view] of main.rs), as the values the HTML is made of.

    The client shows the project [p] it has received; markup, titles, icons and the layout are
    left out, and the libraries for markdown and pictures are parameters. *)
From Coq Require Import ZArith.
From Verif Require Import Api Render View WebGraph Ls.
From Verif Require Import Base Regex Name Artifact Lint Web.

(** dev_prelude.rs:374-400, [Nav], [Search] and [Graph]: the two panes and the field of the graph *)
Record nav := mkNav { nv_search_on : bool; nv_search : str; nv_forms_on : bool; nv_forms : str; nv_graph : str }.
(** [<a href=.., color=..>label</a>] *)
Record link := mkLink { lk_href : str; lk_label : str; lk_color : option str }.
(** artifact.rs:34-80, the page of an artifact: heading, dot text of the small graph, the two ratios
    and their colors, file, how it is implemented, text *)
Record art_page := mkArtPage {
  ap_name : str; ap_graph : str; ap_spc : str * str; ap_tst : str * str; ap_file : str; ap_impl : option (str * str); ap_text : str }.
Inductive page {H : Type} :=
| PgGraph (dot : option str) | PgArtifact (x : art_page) | PgNoArtifact (n : name)
| PgForm (id : N) (e : edit H) (preview : str) | PgNoForm | PgNotFound.
Arguments page : clear implicits. Arguments PgGraph {H}. Arguments PgArtifact {H}. Arguments PgNoArtifact {H}. Arguments PgForm {H}. Arguments PgNoForm {H}. Arguments PgNotFound {H}.
(** A pane is off, or its expression is not valid, or it has links. *)
Record screen {H : Type} := mkScreen { sc_errors : list N; sc_forms : option (option (list link)); sc_search : option (option (list link)); sc_page : page H }.
Arguments screen : clear implicits. Arguments mkScreen {H}. Arguments sc_errors {H}. Arguments sc_forms {H}. Arguments sc_search {H}. Arguments sc_page {H}.

Section Screen.
  Context {M : num} {H : Type}.
  Variable reported : F M -> Z.
  Variable path_str : path -> str.
  Variable strfmt : str -> str -> str -> option str.
  (** The regex library, ignoring case (dev_prelude.rs:493-508, [parse_regex]) *)
  Variable parse : str -> option (str -> bool).
  Variable viz : str -> str.
  Variable p : project M H.
  Variable base : str.
  Variable url : option str.
  Notation artifact := (artifact M H).

  (** name.rs:3-12, [name_html]; the color is that of markdown.rs:374-379 (artifact.rs:111-119) *)
  Definition name_link (n : name) : res link :=
    res_bind (name_hex reported p n) (fun c => Ok (mkLink (s "#" ++ n_raw n) (n_raw n) (Some c))).
  (** nav.rs:208-216 *)
  Definition search_links (re : str -> bool) : res (list link) :=
    res_map name_link (filter (fun n => re (n_raw n)) (map fst (pr_arts p))).
  (** nav.rs:162-173, [editing_name_html] *)
  Definition form_link (x : N * edit H) : link :=
    mkLink (s "#" ++ hash_edit (fst x)) (if is_nil (e_name (snd x)) then s "NOT YET NAMED" else e_name (snd x)) None.
  (** nav.rs:175-183 *)
  Definition form_links (c : client H) (re : str -> bool) : res (list link) :=
    Ok (map form_link (filter (fun x => re (e_name (snd x))) (c_edits c))).
  (** nav.rs:157-160 and 203-206; 175, 183, 208, 216 *)
  Definition pane (on : bool) (x : str) (links : (str -> bool) -> res (list link)) : res (option (option (list link))) :=
    if on
    then match parse x with Some re => res_bind (links re) (fun l => Ok (Some (Some l))) | None => Ok (Some None) end
    else Ok None.

  (** artifact.rs:83-95, [spc_html], and 97-109, [tst_html] *)
  Definition spc_shown (x : Z) : res (str * str) :=
    match spc_points x with 0 => Ok (percent x, red) | 1 => Ok (percent x, orange) | 2 => Ok (percent x, blue) | 3 => Ok (percent x, olive) | _ => Panic end.
  Definition tst_shown (x : Z) : res (str * str) :=
    match tst_points x with 0 => Ok (percent x, red) | 1 => Ok (percent x, orange) | 2 => Ok (percent x, olive) | _ => Panic end.
  (** artifact.rs:126-150, [html] and [primary_html] *)
  Definition impl_shown (i : impl) : option (str * str) :=
    match i with
    | IDone d => Some (s "Defined as done:", d)
    | ICode c => match ic_primary c with
                 | Some loc => Some (s "Implemented:", loc_debug (path_str (loc_file loc)) (loc_line loc))
                 | None => None
                 end
    | INot => None
    end.
  (** artifact.rs:34-80, [view_existing_artifact] *)
  Definition artifact_page (a : artifact) : res art_page :=
    res_bind (artifact_part_dot reported p a) (fun g =>
    res_bind (spc_shown (reported (fst (a_completed a)))) (fun spc =>
    res_bind (tst_shown (reported (snd (a_completed a)))) (fun tst =>
    res_bind (view_text viz reported path_str strfmt p base url (n_raw (a_name a)) (a_text a)) (fun t =>
    Ok (mkArtPage (n_raw (a_name a)) g spc tst (path_str (a_file a)) (impl_shown (a_impl a)) t))))).
  (** main.rs:146-165, [view]: graph.rs:85-136, artifact.rs:19-32 [view_artifact], edit.rs:66-160
      [view_edit_page], whose inputs have the fields of the form; [g] is the text of the graph *)
  Definition page_of (c : client H) (g : option (res str)) : res (page H) :=
    match c_view c with
    | VGraph => match g with Some r => res_bind r (fun o => Ok (PgGraph (Some o))) | None => Ok (PgGraph None) end
    | VArtifact n => match im_get name_eqb n (pr_arts p) with
                     | Some a => res_bind (artifact_page a) (fun x => Ok (PgArtifact x))
                     | None => Ok (PgNoArtifact n)
                     end
    | VEdit id => match im_get N.eqb id (c_edits c) with
                  | Some e => res_bind (view_text viz reported path_str strfmt p base url (e_name e) (e_text e)) (fun t => Ok (PgForm id e t))
                  | None => Ok PgNoForm
                  end
    | VNotFound => Ok PgNotFound
    end.
  (** nav.rs:22-113, [view_nav]; the errors by their ids, nav.rs:115-153 *)
  Definition screen_of (c : client H) (v : nav) (g : option (res str)) : res (screen H) :=
    res_bind (page_of c g) (fun pg =>
    res_bind (pane (nv_forms_on v) (nv_forms v) (form_links c)) (fun fs =>
    res_bind (pane (nv_search_on v) (nv_search v) search_links) (fun ss =>
    Ok (mkScreen (c_logs c) fs ss pg)))).
  Definition displays (c : client H) (v : nav) (r : res (screen H)) : Prop :=
    exists g, graph_results reported p parse (nv_graph v) g /\ r = screen_of c v g.
End Screen.
