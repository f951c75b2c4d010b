[
 {
  "file": "ChanUpd_Model",
  "def": "ChanUpd_Model.set_item",
  "old": "(k', v) :: r else",
  "new": "(k', v') :: r else",
  "edit": "an entry that is there keeps its payload",
  "breaks": [
   "C108"
  ]
 },
 {
  "file": "ChanUpd_Model",
  "def": "ChanUpd_Model.set_item",
  "old": "(k', v) :: r else",
  "new": "(k', v') :: set_item r k v else",
  "edit": "an entry that is there is entered again",
  "breaks": [
   "C108"
  ]
 },
 {
  "file": "ChanUpd_Model",
  "def": "ChanUpd_Model.add_port_pair",
  "old": "set_item d (s, t) pl",
  "new": "set_item d (t, s) pl",
  "edit": "source and destination exchanged",
  "breaks": [
   "C108"
  ]
 },
 {
  "file": "ChanUpd_Model",
  "def": "ChanUpd_Model.add_port_pair",
  "old": "set_item d (s, t) pl",
  "new": "d ++ [((s, t), pl)]",
  "edit": "entries are appended without looking",
  "breaks": [
   "C108"
  ]
 },
 {
  "file": "ChanUpd_Model",
  "def": "ChanUpd_Model.add_port_pair",
  "old": "set_item d (s, t) pl",
  "new": "set_item d (s, t) (s + t)",
  "edit": "each pair gets a payload of its own",
  "breaks": [
   "C108"
  ]
 },
 {
  "file": "ChanUpd_Model",
  "def": "ChanUpd_Model.add_src_port",
  "old": "if is_a g t TAbstractSrcPort then d",
  "new": "if is_a g t TAbstractDstPort then d",
  "edit": "destinations that are destination ports are skipped",
  "breaks": [
   "C108"
  ]
 },
 {
  "file": "ChanUpd_Model",
  "def": "ChanUpd_Model.add_src_port",
  "old": "if is_a g t TAbstractSrcPort then d else add_port_pair d s t",
  "new": "add_port_pair d s t",
  "edit": "source ports at the end of a chain are entered",
  "breaks": [
   "C108"
  ]
 },
 {
  "file": "ChanUpd_Model",
  "def": "ChanUpd_Model.add_src_port",
  "old": "if is_a g t TAbstractSrcPort then d else add_port_pair d s t",
  "new": "if negb (is_a g t TAbstractDstPort) then d else add_port_pair d s t",
  "edit": "virtual ports at the end of a chain are skipped",
  "breaks": [
   "C108"
  ]
 },
 {
  "file": "ChanUpd_Model",
  "def": "ChanUpd_Model.add_src_port",
  "old": "dst_ports lim g false s",
  "new": "dst_ports lim g true s",
  "edit": "a port without connections is its own destination",
  "breaks": [
   "C108"
  ]
 },
 {
  "file": "ChanUpd_Model",
  "def": "ChanUpd_Model.add_src_port",
  "old": "match dst_ports lim g false s with",
  "new": "match src_ports lim g false s with",
  "edit": "sources are entered as destinations",
  "breaks": [
   "C108"
  ]
 },
 {
  "file": "ChanUpd_Model",
  "def": "ChanUpd_Model.add_dst_port",
  "old": "if is_a g s TAbstractDstPort then d else add_port_pair d s t",
  "new": "add_port_pair d s t",
  "edit": "destination ports at the start of a chain are entered",
  "breaks": [
   "C108"
  ]
 },
 {
  "file": "ChanUpd_Model",
  "def": "ChanUpd_Model.add_dst_port",
  "old": "if is_a g s TAbstractDstPort then d else add_port_pair d s t",
  "new": "if is_a g s TAbstractDstPort then d else add_port_pair d t s",
  "edit": "a destination port's pairs are entered the other way round",
  "breaks": [
   "C108"
  ]
 },
 {
  "file": "ChanUpd_Model",
  "def": "ChanUpd_Model.add_dst_port",
  "old": "src_ports lim g false t",
  "new": "src_ports lim g true t",
  "edit": "a destination without connections is its own source",
  "breaks": [
   "C108"
  ]
 },
 {
  "file": "ChanUpd_Model",
  "def": "ChanUpd_Model.each",
  "old": "Some d => f d x",
  "new": "Some d => match f d x with Some d' => Some d' | None => Some d end",
  "edit": "exceptions are swallowed",
  "breaks": [
   "C108"
  ]
 },
 {
  "file": "ChanUpd_Model",
  "def": "ChanUpd_Model.each",
  "old": "Some d => f d x | None => None end) l d",
  "new": "Some d => f d x | None => None end) (firstn 1 l) d",
  "edit": "only the first port of a collection is added",
  "breaks": [
   "C108"
  ]
 },
 {
  "file": "ChanUpd_Model",
  "def": "ChanUpd_Model.add_port_pairs",
  "old": ": dict := d.",
  "new": ": dict := fold_left (fun d k => set_item d k pl) l d.",
  "edit": "add_port_pairs adds the pairs",
  "breaks": [
   "C108"
  ]
 },
 {
  "file": "ChanUpd_Model",
  "def": "ChanUpd_Model.update_process",
  "old": "isinstance c (TExact VarPort)",
  "new": "pclass_eqb c VarPort",
  "edit": "implicit VarPorts are not added",
  "breaks": [
   "C108"
  ]
 },
 {
  "file": "ChanUpd_Model",
  "def": "ChanUpd_Model.update_process",
  "old": "pclass_eqb c RefPort",
  "new": "pclass_eqb c OutPort",
  "edit": "RefPorts are not added",
  "breaks": [
   "C108"
  ]
 },
 {
  "file": "ChanUpd_Model",
  "def": "ChanUpd_Model.update_process",
  "old": "pclass_eqb c InPort",
  "new": "pclass_eqb c OutPort",
  "edit": "InPorts are not added",
  "breaks": [
   "C108"
  ]
 },
 {
  "file": "ChanUpd_Model",
  "def": "ChanUpd_Model.update_process",
  "old": "pclass_eqb c OutPort)) o",
  "new": "pclass_eqb c InPort)) o",
  "edit": "OutPorts are not added",
  "breaks": [
   "C108"
  ]
 },
 {
  "file": "ChanUpd_Model",
  "def": "ChanUpd_Model.update_group",
  "old": "fold_left update_process group o",
  "new": "fold_left update_process (tl group) o",
  "edit": "the first process of a group is left out",
  "breaks": [
   "C108"
  ]
 }
]