[
 {
  "file": "Mnist_Model",
  "def": "Mnist_Model.try_mirrors",
  "old": "| NoUrl => try_mirrors i rs'",
  "new": "| NoUrl => raise UrlError",
  "edit": "the first failing mirror ends the download",
  "breaks": [
   "C104"
  ]
 },
 {
  "file": "Mnist_Model",
  "def": "Mnist_Model.try_mirrors",
  "old": "| NoAnswer => raise OtherNetError",
  "new": "| NoAnswer => try_mirrors i rs'",
  "edit": "a lost connection is caught too (a repair)",
  "breaks": [
   "C104"
  ]
 },
 {
  "file": "Mnist_Model",
  "def": "Mnist_Model.try_mirrors",
  "old": "| [] => raise UrlError",
  "new": "| [] => ret tt",
  "edit": "failure of all mirrors is only printed",
  "breaks": [
   "C104"
  ]
 },
 {
  "file": "Mnist_Model",
  "def": "Mnist_Model.try_mirrors",
  "old": "| Bytes b => write_temp i (Raw b)",
  "new": "| Bytes b => bind (write_temp i (Raw b)) (fun _ => try_mirrors i rs')",
  "edit": "no break after success: the last mirror wins, or URLError",
  "breaks": [
   "C104"
  ]
 },
 {
  "file": "Mnist_Model",
  "def": "Mnist_Model.try_mirrors",
  "old": "| Bytes b => write_temp i (Raw b)",
  "new": "| Bytes b => write_temp 0 (Raw b)",
  "edit": "every file saved under the first name",
  "breaks": [
   "C104"
  ]
 },
 {
  "file": "Mnist_Model",
  "def": "Mnist_Model.download",
  "old": "(try_mirrors 2 (net 2)) (fun _ => try_mirrors 3 (net 3))",
  "new": "(try_mirrors 3 (net 3)) (fun _ => try_mirrors 2 (net 2))",
  "edit": "order of the last two files swapped",
  "breaks": [
   "C104"
  ]
 },
 {
  "file": "Mnist_Model",
  "def": "Mnist_Model.download",
  "old": "try_mirrors 3 (net 3)",
  "new": "try_mirrors 3 (net 1)",
  "edit": "training labels downloaded as test labels",
  "breaks": [
   "C104"
  ]
 },
 {
  "file": "Mnist_Model",
  "def": "Mnist_Model.parse_images",
  "old": "frombuffer 16 b",
  "new": "frombuffer 8 b",
  "edit": "image header of 8 bytes",
  "breaks": [
   "C104"
  ]
 },
 {
  "file": "Mnist_Model",
  "def": "Mnist_Model.parse_labels",
  "old": "frombuffer 8 b",
  "new": "frombuffer 16 b",
  "edit": "label header of 16 bytes",
  "breaks": [
   "C104"
  ]
 },
 {
  "file": "Mnist_Model",
  "def": "Mnist_Model.frombuffer",
  "old": "Some (skipn offset b)",
  "new": "Some (firstn (List.length b - offset) b)",
  "edit": "the header kept, the end cut",
  "breaks": [
   "C104"
  ]
 },
 {
  "file": "Mnist_Model",
  "def": "Mnist_Model.parse_images",
  "old": "(List.length l mod 784) 0",
  "new": "(List.length l mod 783) 0",
  "edit": "images of 27x29",
  "breaks": [
   "C104"
  ]
 },
 {
  "file": "Mnist_Model",
  "def": "Mnist_Model.decompress_convert_save",
  "old": "bind (stack a b c d) (fun x => save dir_ok p x)",
  "new": "bind (stack c d a b) (fun x => save dir_ok p x)",
  "edit": "test set first",
  "breaks": [
   "C104"
  ]
 },
 {
  "file": "Mnist_Model",
  "def": "Mnist_Model.decompress_convert_save",
  "old": "bind (stack a b c d)",
  "new": "bind (stack a d c b)",
  "edit": "labels of the sets swapped",
  "breaks": [
   "C104"
  ]
 },
 {
  "file": "Mnist_Model",
  "def": "Mnist_Model.stack",
  "old": "ret (mkData a b c d)",
  "new": "ret (mkData a b a d)",
  "edit": "training images twice",
  "breaks": [
   "C104"
  ]
 },
 {
  "file": "Mnist_Model",
  "def": "Mnist_Model.stack",
  "old": "then raise StackError",
  "new": "then ret (mkData a b c d)",
  "edit": "equal sizes stacked fine",
  "breaks": [
   "C104"
  ]
 },
 {
  "file": "Mnist_Model",
  "def": "Mnist_Model.npy_name",
  "old": "if ends_with \".npy\" p then p else",
  "new": "if false then p else",
  "edit": "suffix always added",
  "breaks": [
   "C104"
  ]
 },
 {
  "file": "Mnist_Model",
  "def": "Mnist_Model.npy_name",
  "old": "(p ++ \".npy\")%string",
  "new": "p",
  "edit": "suffix never added (a repair)",
  "breaks": [
   "C104"
  ]
 },
 {
  "file": "Mnist_Model",
  "def": "Mnist_Model.save",
  "old": "if dir_ok (npy_name p) then write_disk (npy_name p) (Npy d) else raise NotFound",
  "new": "if dir_ok (npy_name p) then write_disk (npy_name p) (Npy d) else ret tt",
  "edit": "a missing directory is ignored",
  "breaks": [
   "C104"
  ]
 },
 {
  "file": "Mnist_Model",
  "def": "Mnist_Model.load",
  "old": "| Some _ => (Raised BadFile, k, s)",
  "new": "| Some _ => (Raised NotFound, k, s)",
  "edit": "a broken file counts as missing",
  "breaks": [
   "C104"
  ]
 },
 {
  "file": "Mnist_Model",
  "def": "Mnist_Model.construct",
  "old": "if e then load p",
  "new": "if negb e then load p",
  "edit": "exists inverted",
  "breaks": [
   "C104"
  ]
 },
 {
  "file": "Mnist_Model",
  "def": "Mnist_Model.construct",
  "old": "if e then load p",
  "new": "if false then load p",
  "edit": "downloads every time",
  "breaks": [
   "C104"
  ]
 },
 {
  "file": "Mnist_Model",
  "def": "Mnist_Model.construct",
  "old": "(decompress_convert_save gunzip dir_ok p) (fun _ => load p)",
  "new": "(decompress_convert_save gunzip dir_ok p) (fun _ => load (npy_name p))",
  "edit": "loads what was saved (a repair)",
  "breaks": [
   "C104"
  ]
 },
 {
  "file": "Mnist_Model",
  "def": "Mnist_Model.exists_file",
  "old": "Some _ => true",
  "new": "Some Part => false | Some _ => true",
  "edit": "a broken file is replaced (a repair)",
  "breaks": [
   "C104"
  ]
 },
 {
  "file": "Mnist_Model",
  "def": "Mnist_Model.write_disk",
  "old": "bind (change (set_disk p Part)) (fun _ => change (set_disk p c))",
  "new": "change (set_disk p c)",
  "edit": "the file is saved in one piece (a repair)",
  "breaks": [
   "C104"
  ]
 },
 {
  "file": "Mnist_Model",
  "def": "Mnist_Model.train_images",
  "old": "60000 * 784",
  "new": "60000 * 783",
  "edit": "reshape to 783 pixels",
  "breaks": [
   "C104"
  ]
 },
 {
  "file": "Mnist_Model",
  "def": "Mnist_Model.test_images",
  "old": "(d10 d))) (10000",
  "new": "(d10 d))) (60000",
  "edit": "test images reshaped as training images",
  "breaks": [
   "C104"
  ]
 },
 {
  "file": "Mnist_Model",
  "def": "Mnist_Model.test_images",
  "old": "then Some (d10 d)",
  "new": "then Some (d00 d)",
  "edit": "test images are training images",
  "breaks": [
   "C104"
  ]
 },
 {
  "file": "Mnist_Model",
  "def": "Mnist_Model.images",
  "old": "Some (a ++ b)",
  "new": "Some (b ++ a)",
  "edit": "images: test set first",
  "breaks": [
   "C104"
  ]
 },
 {
  "file": "Mnist_Model",
  "def": "Mnist_Model.labels",
  "old": "train_labels d ++ test_labels d",
  "new": "test_labels d ++ train_labels d",
  "edit": "labels: test set first",
  "breaks": [
   "C104"
  ]
 },
 {
  "file": "Mnist_Model",
  "def": "Mnist_Model.train_labels",
  "old": "train_labels (d : data) : bytes := d01 d",
  "new": "train_labels (d : data) : bytes := d11 d",
  "edit": "training labels are test labels",
  "breaks": [
   "C104"
  ]
 },
 {
  "file": "Mnist_Model",
  "def": "Mnist_Model.change",
  "old": "| Some 0 => (Crashed, k, s)",
  "new": "| Some 0 => (Crashed, k, f s)",
  "edit": "killed after the change instead of before",
  "breaks": [
   "C104"
  ]
 }
]