{"id": "C01", "title": "circular_deque behaves like a double-ended queue", "statement": "Starting from a fresh circular_deque of any capacity, any sequence of push_back, push_front, pop_back, pop_front, clear, reads by index, front(), back(), size(), empty() and iteration gives exactly the results of an ideal double-ended queue (and throws exactly when the ideal queue is empty for front/back/pop), up to the first push_back executed while the buffer is full and the first element is not stored in slot 0. That one call is an out-of-range insert (undefined behaviour); no other call in such a sequence is.", "quantifier": "all element types, initial capacities and finite operation sequences", "why_tests_cant": "the state is a rotation of the storage that depends on the whole history of pushes and pops; a test visits a handful of rotations", "anchors": ["flut/circular_deque.hpp: circular_deque"]}
{"id": "C02", "title": "circular_deque never grows or fails while it stays within its capacity", "statement": "A circular_deque created with capacity c that never holds more than c elements performs every operation sequence without undefined behaviour and without changing capacity(), wrapping around any number of times; a deque that only grows with push_front is likewise never undefined.", "quantifier": "all capacities and operation sequences whose ideal queue length stays <= c; all sequences whose growth steps are push_front", "why_tests_cant": "wrap-around positions reached depend on unbounded histories", "anchors": ["flut/circular_deque.hpp: push_back, push_front, pop_front, pop_back, capacity"]}
{"id": "C03", "title": "circular_deque hazards: const back() and reserve()", "statement": "The const overload of back() reads the slot one past the last element: on a full deque it returns the first element. reserve(n) keeps the contents when the deque is empty or stored without wrap-around inside the first n slots; otherwise the contents can change.", "quantifier": "all reachable deques and all n", "why_tests_cant": "which deques are damaged depends on their hidden rotation", "anchors": ["flut/circular_deque.hpp: back() const, reserve"]}
{"id": "C04", "title": "flat_map is an insertion-ordered map with unique keys", "statement": "Under any sequence of m[k]=v, reading m[k] (inserting a default value), erase and clear: no key ever appears twice, find/at/operator[] return the most recent value stored for the key, other keys are unaffected, at throws exactly for absent keys, and iteration lists keys in the order of their first (surviving) insertion.", "quantifier": "all key/value types with decidable key equality and all operation histories", "why_tests_cant": "needs all histories, including re-insertion after erase", "anchors": ["flut/flat_map.hpp: flat_map"]}
{"id": "C05", "title": "factory: last registration wins, unknown names are reported", "statement": "After any sequence of registrations, create(name) calls the constructor registered last under that name; create throws and try_create returns null exactly for names never registered; has(name) tells these apart.", "quantifier": "all registration sequences and names", "why_tests_cant": "depends on arbitrary registration history", "anchors": ["flut/factory.hpp: factory"]}
{"id": "C06", "title": "sorted_vector stays sorted and loses nothing", "statement": "Inserting any sequence of elements in any order yields a sequence sorted by the comparator which is a permutation of the inserted elements, with equivalent elements in insertion order; the returned iterator designates the inserted element.", "quantifier": "all strict weak orders, all element sequences", "why_tests_cant": "binary search correctness needs every length and every placement of ties", "anchors": ["flut/sorted_vector.hpp: insert"]}
{"id": "C07", "title": "data_header label/index consistency", "statement": "For a header changed only with add(), resize(), clear() and set() of the still unnamed last channel, find(label) is the position of that label and operator[](find(label)) = label, and add throws exactly on duplicates. In general set(i,label) makes find(label) return the last position whatever i is (so the header is inconsistent unless i is the last), leaves all other labels and lookups alone, and throws exactly when i is out of range or the label is already found; a header constructed from a label list finds none of its labels.", "quantifier": "all histories of add/set/resize/clear/find and all labels", "why_tests_cant": "index map and label vector can only drift apart after particular histories", "anchors": ["flut/buffer/data_header.hpp: data_header"]}
{"id": "C08", "title": "storage::resize preserves all existing cells", "statement": "resize(f,c,v) keeps the value of every existing cell (frame,channel), fills every new cell with v, and throws exactly when f or c is smaller than the current size, leaving the contents untouched.", "quantifier": "all storages, all sizes f and c, all values", "why_tests_cant": "index re-mapping must be right for every shape", "anchors": ["flut/storage.hpp: resize, operator()"]}
{"id": "C09", "title": "storage behaves as a frames x channels matrix under any history", "statement": "Under any sequence of add_channel, add_frame, find_or_add_channel, cell writes and clear, storage keeps a rectangular frames-by-channels matrix: writes are read back, other cells are not disturbed, new frames/channels hold the given fill value, at() throws exactly out of range, and channels are found by their label.", "quantifier": "all operation histories, labels, values", "why_tests_cant": "quantifies over interleavings of row and column growth", "anchors": ["flut/storage.hpp: storage", "flut/buffer/data_header.hpp"]}
{"id": "C10", "title": "storage::add_channel is not exception safe", "statement": "add_channel with a label that already exists throws, but only after the storage has grown by one unlabelled channel; all old cells keep their values.", "quantifier": "all storages and duplicate labels", "why_tests_cant": "needs state after the exception for every storage", "anchors": ["flut/storage.hpp: add_channel", "flut/buffer/data_header.hpp: set"]}
{"id": "C11", "title": "storage interpolation between frames", "statement": "get_interpolated_value(t, ch) equals the cell at integer t, is the linear interpolation between frames floor(t) and floor(t)+1, lies between both cells, and throws exactly when floor(t)+1 is not a frame - in particular at the last frame.", "quantifier": "all storages and non-negative real positions", "why_tests_cant": "ranges over all reals and shapes", "anchors": ["flut/storage.hpp: get_interpolated_value"]}
{"id": "C12", "title": "table column growth in place preserves every cell", "statement": "Adding columns to a table (in-place backwards reorganisation of one array) keeps every existing cell and sets all new cells to T(); the default_value argument of add_column is ignored.", "quantifier": "all tables, all new column counts >= current", "why_tests_cant": "the in-place move is only correct because of its traversal order, for every shape", "anchors": ["flut/table.hpp: resize, add_column"]}
{"id": "C13", "title": "table label access", "statement": "t(row,col) by labels adds missing rows and columns and designates the unique cell for that pair; later additions keep earlier cells; the unspecified evaluation order of the two lookups does not change the outcome. resize to more rows than present writes out of bounds as soon as there is a column.", "quantifier": "all label-access histories and both evaluation orders", "why_tests_cant": "all histories; evaluation order chosen by the compiler", "anchors": ["flut/table.hpp: operator(), add_row, add_column, resize"]}
{"id": "C14", "title": "auto_storage_writer keeps each variable's history in order", "statement": "For every sequence of write(label, value) with values different from the sentinel, reading a label's channel from first to last frame and dropping sentinel cells gives exactly the values written for that label in order.", "quantifier": "all interleavings of labels and values", "why_tests_cant": "all interleavings, including channels that first appear late", "anchors": ["flut/system/debug_storage.cpp: write", "flut/system/debug_storage.hpp"]}
{"id": "C15", "title": "circular_frame_buffer keeps the last N frames", "statement": "After any number of add_frame/write steps, the last N frames (N = ring size) read back the values written to them; at() accepts exactly those frames once N frames were added, but rejects every frame before that; add_channel makes the ring as long as the current frame count and erases the contents (with no frames yet, later access divides by zero).", "quantifier": "all ring sizes, channels and histories", "why_tests_cant": "wrap-around after unboundedly many frames; unsigned wrap in the bounds check", "anchors": ["flut/buffer/circular_frame_buffer.hpp: circular_frame_buffer"]}
{"id": "C16", "title": "channel means and covariance", "statement": "compute_channel_means returns each channel's arithmetic mean; compute_covariance is symmetric, has the population variances on the diagonal, is positive semidefinite, and is unchanged when a constant is added to a channel.", "quantifier": "all non-empty storages of real values", "why_tests_cant": "all shapes and values", "anchors": ["flut/buffer/data_algorithms.hpp: compute_channel_means, compute_covariance"]}
{"id": "C17", "title": "trim_str / trim_right_str", "statement": "trim_str(s,set) is the longest middle part of s that neither starts nor ends with a character of set: s = l+trim+r with l,r consisting of set characters only; trimming is idempotent; a string of only set characters trims to empty. Same for trim_right_str on the right side.", "quantifier": "all strings and character sets", "why_tests_cant": "all strings", "anchors": ["flut/string_tools.hpp: trim_str, trim_right_str"]}
{"id": "C18", "title": "split_str yields exactly the maximal separator-free runs", "statement": "split_str(s, seps) returns, in order, the maximal non-empty runs of characters not in seps; joining separator-free non-empty words with any separators and splitting again returns the words.", "quantifier": "all strings and separator sets", "why_tests_cant": "all strings; off-by-one at either end", "anchors": ["flut/string_tools.hpp: split_str"]}
{"id": "C19", "title": "quoted / try_quoted round trip", "statement": "For every string of characters 1..127, try_unquoted(quoted(s)) = s and try_unquoted(try_quoted(s)) = s, and quoted(s) contains no control character. It fails for NUL and for every character above 127 (signed char).", "quantifier": "all strings over characters 1..127; all strings containing NUL or high characters for the converse on single characters", "why_tests_cant": "escape sequences interact with the following characters; needs all strings", "anchors": ["flut/string_tools.cpp: encode_char, decode_char, quoted, try_quoted, try_unquoted, needs_quotes"]}
{"id": "C20", "title": "try_unquoted and decode_char on arbitrary input", "statement": "try_unquoted returns its argument unchanged unless it starts and ends with a double quote; on a one-character string consisting of a quote, and on strings whose final quote is consumed by an escape, it reads past the end (undefined behaviour), and on no others. decode_char consumes 0 characters on a lone trailing backslash.", "quantifier": "all strings", "why_tests_cant": "malformed input space is unbounded", "anchors": ["flut/string_tools.cpp: try_unquoted, decode_char"]}
{"id": "C21", "title": "str_begins_with / str_ends_with", "statement": "str_begins_with(s,t) is true exactly when t is a prefix of s. str_ends_with(s,t) is true only if t is a suffix, and exactly when additionally t has no earlier occurrence in s (so it wrongly answers false e.g. for abab/ab).", "quantifier": "all pairs of strings", "why_tests_cant": "all pairs of strings; the failing ones need a repeated occurrence", "anchors": ["flut/string_tools.hpp: str_begins_with, str_ends_with"]}
{"id": "C22", "title": "left_str / right_str / mid_str / left_of_str / right_of_str", "statement": "left_str(s,n) is the first min(n,size) characters for n>=0 and drops the last -n for n<0; right_str(s,n) is the last n characters, throwing exactly when n > size, and drops the first -n for n<0, throwing exactly when -n > size; left_of_str returns the text before the first separator, right_of_str the text after the last one, both the whole string if there is none.", "quantifier": "all strings and ints", "why_tests_cant": "signed/unsigned conversions at every boundary", "anchors": ["flut/string_tools.hpp: left_str, right_str, mid_str, left_of_str, right_of_str"]}
{"id": "C23", "title": "make_key_value_str splits at the first separator", "statement": "make_key_value_str(s,sep) returns (trimmed text before the first separator, trimmed text after it); without separator it returns (s, empty) untrimmed. Composing key+sep+value for trimmed, separator-free keys and trimmed values is inverted.", "quantifier": "all strings", "why_tests_cant": "all strings", "anchors": ["flut/string_tools.cpp: make_key_value_str"]}
{"id": "C24", "title": "filename helpers recompose", "statement": "If get_filename_ext(s) is non-empty then s = get_filename_without_ext(s) + '.' + ext and ext contains no separator; if s contains a separator then get_filename_folder(s) + get_filename_without_folder(s) = s. For a bare name get_filename_folder returns the whole name.", "quantifier": "all strings", "why_tests_cant": "all placements of dots and separators", "anchors": ["flut/string_tools.cpp: get_filename_ext, get_filename_without_ext, get_filename_folder, get_filename_without_folder"]}
{"id": "C25", "title": "path joining and splitting", "statement": "For a non-empty file name f without separators and any non-empty path p: (p/f).filename() = f and (p/f).parent_path() is p without one trailing separator; p/f never has two separators at the join; make_preferred is idempotent and length preserving; parent_path()/filename() recompose; extension(), replace_extension() look at the last dot of the whole path, so a dot in a folder name is treated as extension; filename() of a bare name is empty.", "quantifier": "all paths", "why_tests_cant": "all placements of separators and dots", "anchors": ["flut/system/path.cpp: path", "flut/system/path.hpp: path"]}
{"id": "C26", "title": "integer text round trip", "statement": "from_str<int>(to_str(i)) = i for every int, and prop_node values written with set<int> are read back unchanged by get<int>.", "quantifier": "all 32-bit (and 64-bit) integers", "why_tests_cant": "2^64 values", "anchors": ["flut/system/string_cast.hpp: string_cast", "flut/prop_node.hpp"]}
{"id": "C27", "title": "version text round trip", "statement": "version(v.to_str()) = v whenever build > 0 and the postfix has no whitespace; for build == 0 the parsed version has an indeterminate build number (and a postfix is lost).", "quantifier": "all version numbers and postfixes", "why_tests_cant": "all integers and strings", "anchors": ["flut/system/version.hpp: version"]}
{"id": "C28", "title": "compile-time and run-time hashes agree", "statement": "hash(s) equals hash_constexpr(s) for every string, depends only on the characters before the first NUL, equals standard 64-bit FNV-1a when all characters are below 128, and two strings of equal length differing in exactly one character never collide.", "quantifier": "all strings", "why_tests_cant": "all strings; collisions", "anchors": ["flut/hash.hpp: hash, hash_constexpr"]}
{"id": "C29", "title": "scan_str / str_to_vec", "statement": "str_to_vec returns all leading parsable elements up to the maximum. scan_str assigns its targets in order and returns the number of targets read, except that the last one is not counted when it ends the string.", "quantifier": "all element lists and counts", "why_tests_cant": "all token sequences", "anchors": ["flut/string_tools.hpp: scan_str, str_to_vec", "flut/char_stream.hpp: operator>>"]}
{"id": "C30", "title": "dictionary lookup", "statement": "For a dictionary of distinct names and distinct values, lookups in both directions are mutually inverse; with duplicates the first entry wins; unknown keys throw or give the default.", "quantifier": "all dictionaries and keys", "why_tests_cant": "all tables", "anchors": ["flut/dictionary.hpp: dictionary"]}
{"id": "C31", "title": "the token reader makes progress, and when it does not", "statement": "get_token consumes at least one character whenever the stream is good, and returns; except that a quotation left open at the end of the text whose last character is an unescaped backslash makes it loop forever.", "quantifier": "all texts, delimiter, operator and quotation sets", "why_tests_cant": "non-termination on malformed input; all inputs", "anchors": ["flut/char_stream.cpp: get_token, skip_delimiters", "flut/string_tools.cpp: decode_char"]}
{"id": "C32", "title": "every property text is parsed or rejected in finite time", "statement": "parse_prop on any text whose C string does not end in a backslash terminates with a tree or an exception; on a text that ends in a lone backslash inside an open quotation it does not terminate.", "quantifier": "all texts", "why_tests_cant": "all inputs", "anchors": ["flut/prop_node_tools.cpp: parse_prop, read_prop_node, get_prop_token"]}
{"id": "C33", "title": "save_prop / load_prop round trip", "statement": "For every property tree whose labels start with a letter, whose labels and values have no leading or trailing whitespace, use characters 1..127 and are quoted by the writer or free of ; ' = { } %, and in which no node has both a value and children: parsing the readable text written for the tree gives the same tree.", "quantifier": "all such trees, any depth and width", "why_tests_cant": "unbounded trees and strings", "anchors": ["flut/prop_node_tools.cpp: write_prop_none, parse_prop, read_prop_node, get_prop_token", "flut/char_stream.cpp: get_token", "flut/string_tools.cpp: try_quoted"]}
{"id": "C34", "title": "property texts that do not survive a round trip", "statement": "The round trip of C33 fails for: a node with value and children, values containing = { } % ; or ' without whitespace, values with leading or trailing whitespace, labels not starting with a letter, and the compact format as soon as there are two leaf siblings.", "quantifier": "families of trees (all strings in each family)", "why_tests_cant": "shows which inputs corrupt silently", "anchors": ["flut/prop_node_tools.cpp: write_prop_none, read_prop_node"]}
{"id": "C35", "title": "comments in property files", "statement": "A comment starting with % and at least one non-delimiter character is skipped up to the end of its line and does not change the parsed tree; a % directly followed by the end of line also swallows the next line.", "quantifier": "all texts and comment contents", "why_tests_cant": "all texts", "anchors": ["flut/prop_node_tools.cpp: get_prop_token", "flut/char_stream.cpp: get_line"]}
{"id": "C36", "title": "ini save/load", "statement": "load_ini(save_ini(t)) = t for trees of top-level values followed by groups of values with distinct, trimmed, safe keys; a top-level value after a group moves into that group; a # line also swallows the line after it.", "quantifier": "all such trees and texts", "why_tests_cant": "all trees", "anchors": ["flut/prop_node_tools.cpp: load_ini, save_ini, operator<<"]}
{"id": "C37", "title": "prop_node set/get", "statement": "After pn.set(key,v), pn.get(key) = v; every other key's lookup is unchanged; the position of an existing key is kept and its children are removed; a new key is appended; get throws and get with default returns the default exactly for absent keys.", "quantifier": "all trees, keys and values", "why_tests_cant": "all trees, incl. duplicate keys", "anchors": ["flut/prop_node.hpp: set, get, try_get, get_child, push_back", "flut/prop_node.cpp"]}
{"id": "C38", "title": "delimited keys", "statement": "After set_delimited(path,v), get_delimited(path) = v; every path that is not an extension or prefix of it is unaffected; get_delimited throws exactly when some component is missing.", "quantifier": "all trees, delimited keys, values", "why_tests_cant": "all depths", "anchors": ["flut/prop_node.hpp: set_delimited, get_delimited", "flut/prop_node.cpp: get_child_delimited"]}
{"id": "C39", "title": "prop_node equality is structural", "statement": "a == b is true exactly when both trees have the same value and the same ordered children, recursively; access marks are ignored; copies compare equal.", "quantifier": "all trees", "why_tests_cant": "all trees", "anchors": ["flut/prop_node.cpp: operator==", "flut/prop_node.hpp"]}
{"id": "C40", "title": "access tracking", "statement": "After clear_accessed_recursively every node counts as unaccessed; get_delimited(path) marks exactly the nodes on the path; count_unaccessed is the number of unmarked nodes; reporting with log_unaccessed itself marks every node, so a second report is empty. A mark does not survive every later operation: adding a child may reset the marks of its siblings.", "quantifier": "all trees and access histories", "why_tests_cant": "all trees", "anchors": ["flut/prop_node.hpp: access, count_unaccessed, clear_accessed_recursively", "flut/prop_node_tools.cpp: log_unaccessed"]}
{"id": "C41", "title": "merge_prop_nodes", "statement": "Merging keeps every key of both nodes: keys only in one node keep that node's subtree; for common keys the first node's subtree is kept, or replaced by the other's when overwriting (by the last of several equal keys). New keys are appended in order.", "quantifier": "all pairs of trees and both modes", "why_tests_cant": "all trees", "anchors": ["flut/prop_node_tools.cpp: merge_prop_nodes"]}
{"id": "C42", "title": "include resolution terminates and is complete", "statement": "load_file_with_include terminates for every file system, including cyclic includes (which end in an exception), and a returned tree contains no include directive at any depth.", "quantifier": "all file systems and include graphs", "why_tests_cant": "all include graphs, including cycles", "anchors": ["flut/prop_node_tools.cpp: load_file_with_include, resolve_include_files"]}
{"id": "C43", "title": "structured values survive prop_node conversion", "statement": "A vector, and a vector of vectors, stored in a prop_node is read back equal, in order; likewise vec3, quat and transform, for element types whose text conversion round-trips, also through a saved and loaded property file. Bounds are read from 'a..b', a single value or named limits.", "quantifier": "all vectors and element values", "why_tests_cant": "all lengths", "anchors": ["flut/prop_node.hpp: prop_node_cast", "flut/math/vec3_type.hpp", "flut/math/quat_type.hpp", "flut/math/transform.hpp", "flut/math/bounds.hpp"]}
{"id": "C44", "title": "log messages reach exactly the interested sinks", "statement": "After any history of adding, removing and re-levelling sinks and setting the global level, a message of level l is delivered exactly once to each registered sink whose level is at most l (in registration order), and to no other.", "quantifier": "all histories and levels", "why_tests_cant": "the cached lowest level must be right after every history", "anchors": ["flut/system/log.cpp", "flut/system/log_sink.hpp"]}
{"id": "C45", "title": "profiler accounting", "statement": "For every balanced sequence of start/end with a non-decreasing clock: the sections form a tree with parents created before children, each section's total is the sum of its visits' durations, exclusive times are non-negative, and all exclusive times add up to the root total. Ending a section that was never started is undefined behaviour.", "quantifier": "all balanced call histories and clocks", "why_tests_cant": "all call trees", "anchors": ["flut/system/profiler.cpp: profiler"]}
{"id": "C46", "title": "stopwatch loses no time", "statement": "The sum of all measures plus the internal overhead equals the time between the first and the last epoch, and each named measure is the sum of its intervals.", "quantifier": "all measure histories and clock readings", "why_tests_cant": "all histories", "anchors": ["flut/stopwatch.cpp"]}
{"id": "C47", "title": "memoize is transparent and calls once", "statement": "Every call returns what the function returned on the first call with equal arguments; the function is invoked exactly once per distinct argument tuple; if it throws nothing is cached.", "quantifier": "all functions (also stateful) and call sequences", "why_tests_cant": "all call histories", "anchors": ["flut/memoize.hpp: memoize"]}
{"id": "C48", "title": "test counters", "statement": "num_tests = num_passed + num_failed after any sequence of checks, and report returns -1 exactly when a check failed; reset does not zero the counters but sets tests and passes to the failure count.", "quantifier": "all check sequences", "why_tests_cant": "all histories", "anchors": ["flut/system/test_framework.cpp"]}
{"id": "C49", "title": "flag_set is a set of flags", "statement": "After any sequence of set, set(flag,value) and clear, get(flag) reflects the last operation on that flag and nothing else, for all flags below the width of the storage type; larger flags are undefined behaviour.", "quantifier": "all operation histories and widths", "why_tests_cant": "all histories", "anchors": ["flut/flag_set.hpp: flag_set"]}
{"id": "C50", "title": "create_unique_folder", "statement": "It throws or returns a folder that did not exist before the call and exists afterwards, leaving everything else in place and adding only folders. For a plain name that no file stands in the way of, the first free one of name, name (1), name (2), ... within max_attempts is chosen and exactly the missing folders on the way are made; it throws exactly if none is free or a file is in the way. A name with a separator at its end is the exception: making its parent makes it, so the unique folder ends up inside it.", "quantifier": "all file system states, paths, current folders and numbers of attempts", "why_tests_cant": "all states", "anchors": ["flut/filesystem.cpp: create_unique_folder, create_directories, folder_exists"]}
{"id": "C51", "title": "copy_file", "statement": "copy_file(from,to,overwrite) with an existing source file, another target that can be written, and either overwrite or no such target, makes the target load as the source and touches nothing else; without overwrite an existing target is kept and false is returned; a target that is a folder or has no folder to be in changes nothing. But a missing source makes or empties the target and returns false, copying a file onto itself empties it, and on MSVC the flag has the opposite meaning.", "quantifier": "all file systems and path pairs", "why_tests_cant": "all states", "anchors": ["flut/filesystem.cpp: copy_file, load_string, file_exists"]}
{"id": "C52", "title": "clamp", "statement": "clamp(v,lo,hi) with lo <= hi lies in [lo,hi], returns v inside, is idempotent and monotone, and is the nearest point of the interval.", "quantifier": "all ordered values", "why_tests_cant": "all values", "anchors": ["flut/math/math.hpp: clamp, clamped"]}
{"id": "C53", "title": "soft clamp", "statement": "soft_clamped(v,lo,hi,b) stays strictly inside (lo,hi), is the identity away from the boundary zone, continuous and strictly increasing, for lo < hi and 0 < b <= 1/2.", "quantifier": "all reals", "why_tests_cant": "all reals", "anchors": ["flut/math/math.hpp: soft_clamp, limit_transfer"]}
{"id": "C54", "title": "wrap", "statement": "wrapped(v,lo,hi) differs from v by an integer multiple of hi-lo and lies in [lo,hi]; it equals hi exactly when v is below lo by a whole number of ranges. square_wave has period 2 only for non-negative arguments.", "quantifier": "all reals", "why_tests_cant": "all reals", "anchors": ["flut/math/math.hpp: wrap, wrapped, square_wave"]}
{"id": "C55", "title": "integer predicates", "statement": "is_power_of_two(v) is true exactly for 2^k; is_even / is_odd are correct for all integers incl. negative two's complement values.", "quantifier": "all unsigned values of any width; all signed values", "why_tests_cant": "2^64 inputs", "anchors": ["flut/math/math.hpp: is_power_of_two, is_even, is_odd"]}
{"id": "C56", "title": "quaternion algebra", "statement": "Quaternion multiplication is associative with the identity neutral and multiplicative norm; for unit q, rotating a vector preserves lengths, dot products and orientation (cross products), (q1*q2)*v = q1*(q2*v), and the conjugate undoes the rotation.", "quantifier": "all real quaternions and vectors", "why_tests_cant": "all reals", "anchors": ["flut/math/quat.hpp", "flut/math/vec3.hpp"]}
{"id": "C57", "title": "transform algebra", "statement": "transform composition agrees with applying transforms in sequence, inverse(t) undoes t on both sides, inv_transform undoes transform, for unit rotations.", "quantifier": "all transforms with unit rotation", "why_tests_cant": "all reals", "anchors": ["flut/math/transform.hpp"]}
{"id": "C58", "title": "quaternion constructors", "statement": "quat_from_axis_angle and quat_from_euler give unit quaternions; quat_from_directions(s,t) rotates s onto t for non-antiparallel unit vectors, and fails for antiparallel vectors not perpendicular to x; quat_from_axes reproduces the given orthonormal right-handed axes.", "quantifier": "all axes, angles, directions", "why_tests_cant": "all reals", "anchors": ["flut/math/quat.hpp", "flut/math/quat_type.hpp"]}
{"id": "C59", "title": "bounding_box is the tightest box", "statement": "After including any points, the box contains every point and is contained in every other box that does; the result does not depend on the order.", "quantifier": "all point sequences", "why_tests_cant": "all sequences", "anchors": ["flut/math/bounding_box.hpp"]}
{"id": "C60", "title": "bounds", "statement": "is_within, get_violation and clamp agree: the violation is 0 exactly within bounds, has the sign of the side violated, and equals the distance moved by clamping; negation mirrors the interval.", "quantifier": "all intervals and values", "why_tests_cant": "all reals", "anchors": ["flut/math/bounds.hpp"]}
{"id": "C61", "title": "polynomials and linear regression", "statement": "polynomial evaluation is sum c_i x^i; linear_regression minimises the sum of squared residuals, reproduces exact lines, and the equidistant variant equals the general one on the same points; intersect_y inverts a linear function.", "quantifier": "all point sets with at least two distinct x", "why_tests_cant": "all data sets", "anchors": ["flut/math/polynomial.hpp", "flut/math/linear_regression.hpp"]}
{"id": "C62", "title": "piecewise linear function", "statement": "regular_piecewise_linear_function passes through its nodes, is linear between them, extrapolates the outer segments and reproduces affine functions exactly.", "quantifier": "all node vectors with >= 2 nodes, all real arguments", "why_tests_cant": "all reals", "anchors": ["flut/math/regular_piecewise_linear_function.hpp"]}
{"id": "C63", "title": "interpolated_value on sorted buffers", "statement": "On a non-empty buffer sorted by key, interpolated_value never divides by zero, returns the first/last value outside the key range, the stored value at a (last of equal) key, and the linear interpolation in between; the vector variant likewise on indices.", "quantifier": "all sorted buffers and keys", "why_tests_cant": "all sizes and keys", "anchors": ["flut/buffer/interpolation.hpp", "flut/buffer/buffer_access.hpp"]}
{"id": "C64", "title": "Catmull-Rom segment", "statement": "The segment starts at p1 and ends at p2, joins with matching velocity to the next segment, and reproduces straight lines and parabolas sampled uniformly; the variant with alpha is defined exactly when alpha is 0 or neighbouring points differ and joins without a corner; the spline length is at least the distance of the ends and does not shrink when the number of steps is multiplied.", "quantifier": "all control points and parameters", "why_tests_cant": "all reals", "anchors": ["flut/math/catmull_rom.hpp"]}
{"id": "C65", "title": "iir_filter implements its difference equation", "statement": "For every input sequence the outputs satisfy y[n] = b0 x[n] + sum b_i x[n-i] + a_i y[n-i] with zero history, and the filter is linear and time invariant.", "quantifier": "all coefficient sets, orders, inputs", "why_tests_cant": "all sequences", "anchors": ["flut/filter.hpp"]}
{"id": "C66", "title": "Butterworth low-pass design", "statement": "make_butterworth_2nd_order has unit gain at frequency zero, zero gain at the Nyquist frequency, and is stable for all cutoff ratios in (0,1/2): its response to bounded input is bounded and settles at a constant input; the gain at the cutoff frequency is half power and it decreases from zero to the Nyquist frequency; other ratios can be unstable or undefined.", "quantifier": "all cutoff ratios", "why_tests_cant": "all reals", "anchors": ["flut/filter.hpp"]}
{"id": "C67", "title": "delayer", "statement": "Sampled at its window length a delayer of N-1 windows returns exactly the sample N-1 steps ago; before that it should return the initial value but returns zero except in one slot; smooth_delayer stays between its inputs unless a step is too long.", "quantifier": "all sample sequences", "why_tests_cant": "all histories", "anchors": ["flut/math/delayer.hpp"]}
{"id": "C68", "title": "integer ranges", "statement": "Iterating make_irange(b,e) for b <= e visits b..e-1 in order; with a step s visits b, b+s, ... and stops exactly when s divides e-b with a non-negative quotient, otherwise a signed range overflows and an unsigned one wraps around until it meets the end, if ever.", "quantifier": "all b,e,s", "why_tests_cant": "termination", "anchors": ["flut/math/irange.hpp"]}
{"id": "C69", "title": "running average and delta", "statement": "average_ returns the weighted mean of all added samples with positive total weight (0 otherwise); the sum of delta outputs telescopes to last minus initial value.", "quantifier": "all sequences", "why_tests_cant": "all histories", "anchors": ["flut/math/average.hpp", "flut/math/delta.hpp"]}
{"id": "C70", "title": "optional with sentinel", "statement": "optional<T> built from v is engaged and returns v for every v except, for arithmetic types, the sentinel value, which is indistinguishable from empty; reading into an optional sets it only if the text could be read; == compares engagement, not values.", "quantifier": "all values", "why_tests_cant": "all values", "anchors": ["flut/math/optional.hpp"]}
{"id": "C71", "title": "container tools", "statement": "median is independent of the order and is a middle value (mean of the two middle values); sort_indices returns a permutation that sorts; top_average(c,n) is the mean of the n smallest for n <= size and divides by n regardless for larger n; view_if visits exactly the matching elements in order; find_index returns the first match.", "quantifier": "all containers", "why_tests_cant": "all containers", "anchors": ["flut/container_tools.hpp"]}
{"id": "C72", "title": "vec4 arithmetic", "statement": "vec4 addition acts on all four components, but scaling, division, -= and negation leave w unscaled, so 2*v differs from v+v exactly in w.", "quantifier": "all vectors", "why_tests_cant": "all reals", "anchors": ["flut/math/vec4_type.hpp", "flut/math/vec4.hpp"]}
{"id": "C73", "title": "dynarray ownership", "statement": "dynarray copies are equal and independent; a moved-to array has the contents; every block of memory is owned by exactly one array and freed once; asking a moved-from array for its size, and assigning an array to itself, are undefined.", "quantifier": "all arrays and heaps", "why_tests_cant": "all heaps", "anchors": ["flut/dynarray.hpp"]}
{"id": "C74", "title": "angle conversions", "statement": "Degree/radian conversions are mutually inverse and additive, and degree and radian objects of the same angle compare equal after conversion.", "quantifier": "all reals", "why_tests_cant": "all reals", "anchors": ["flut/math/angle.hpp"]}
{"id": "C75", "title": "approximate equality and signed roots", "statement": "equals(a,b,e) is reflexive, accepts b=0 only for a=0 when e<1, is not symmetric but is so up to the factor 1/(1-e); signed_sqrt is odd, strictly increasing and its signed square gives the argument back; sign has the sign of its argument.", "quantifier": "all reals", "why_tests_cant": "all reals", "anchors": ["flut/math/math.hpp: equals, signed_sqrt, sign"]}
{"id": "C76", "title": "Euler angles from a quaternion", "statement": "euler_from_quat gives back a single Euler angle of less than a quarter turn whatever the order; beyond that it reports angles that no Euler order turns back into the rotation.", "quantifier": "all angles, all six orders", "why_tests_cant": "all reals", "anchors": ["flut/math/quat.hpp: euler_from_quat, pitch, yaw, roll"]}
{"id": "C77", "title": "vector lengths and products", "statement": "normalized gives a unit vector in the same direction unless the vector is not longer than epsilon, which it returns unchanged, while the member normalized divides by zero for the zero vector; lengths satisfy the triangle and Cauchy-Schwarz inequalities; the cross product is perpendicular to both and antisymmetric; vec3_from_polar has the given radius.", "quantifier": "all vectors", "why_tests_cant": "all reals", "anchors": ["flut/math/vec3.hpp", "flut/math/vec3_type.hpp"]}
{"id": "C78", "title": "property names of members", "statement": "tidy_identifier gives the part of an identifier after the last colon without leading and trailing underscores, or the part after m_, so that the usual decorations of a member all give its bare name; a member saved with SET_PROP is read back by INIT_PROP unless a member with the same bare name was saved later, and an absent one gives the default or throws. Names are not kept apart, and are not always bare.", "quantifier": "all identifiers, nodes and value types", "why_tests_cant": "all strings", "anchors": ["flut/system_tools.cpp:56-79", "flut/prop_node_tools.hpp:9-16"]}
{"id": "C79", "title": "timers", "statement": "A timer gives the time since its last reset in every unit, whole units for the integer ones and consistent between units, does not go back if the clock does not, and laps add up to the total but for less than one unit each; the Windows clock is exact for 2^63 nanoseconds of counts and overflows after that (923 seconds at 10 MHz).", "quantifier": "all histories of resets and readings", "why_tests_cant": "all histories of a clock", "anchors": ["flut/timer.hpp", "flut/timer.cpp"]}
{"id": "C80", "title": "pattern matcher", "statement": "A matcher accepts a name without ; exactly when one of the patterns between the delimiters accepts it, joined pattern lists accept the union, no pattern accepts nothing, and select gives exactly the children whose keys match, in order. A name with ; throws, and the patterns themselves are not checked.", "quantifier": "all pattern lists, names and nodes, for any matching function of the system", "why_tests_cant": "all strings and matching functions", "anchors": ["flut/pattern_matcher.hpp", "flut/string_tools.cpp:86-94", "flut/prop_node.hpp:200"]}
{"id": "C81", "title": "property files on disk and error codes", "statement": "load_string gives the contents of a file; a node saved to a prop or ini file is loaded again, whatever other files are saved in between; a missing file throws, or sets the error code if there is one. The error code does not stop parse errors, a stale one makes every file empty, folders load as empty and failed ini saves go unnoticed.", "quantifier": "all file systems, paths and nodes", "why_tests_cant": "all file systems", "anchors": ["flut/filesystem.cpp:141-154", "flut/system/error_code.hpp", "flut/prop_node_tools.cpp:27-32,140-243", "flut/char_stream.cpp:102-105"]}
{"id": "C82", "title": "cloning pointers", "statement": "Cloning a vector of pointers makes new and different objects equal to copies of the originals in the same order, and later changes to either are not seen through the other; null pointers are dereferenced, and objects of a derived class are sliced.", "quantifier": "all heaps, vectors and copy constructors", "why_tests_cant": "all heaps", "anchors": ["flut/memory_tools.hpp"]}
{"id": "C83", "title": "printing a node and the access marks", "statement": "The printed text of a node has one line per node in preorder, indented by its depth, with all values in the leftmost possible column; printing marks every node as read, and saving all but those without value and children, so that unread settings are not found after a save. Different trees can print alike.", "quantifier": "all nodes", "why_tests_cant": "all trees", "anchors": ["flut/prop_node.cpp:22-52", "flut/prop_node.hpp:254", "flut/prop_node_tools.cpp:198-243"]}
{"id": "C84", "title": "function sampling", "statement": "output_function writes exactly the requested number of evenly spaced points from min to max including both, each beside the value of the function; one sample divides by zero, and an integer range overflows in the product.", "quantifier": "all ranges, functions and sample counts", "why_tests_cant": "all reals; all integers", "anchors": ["flut/debug_tools.hpp:9-20"]}
{"id": "C85", "title": "short names of types", "statement": "get_clean_type_name gives the part of a name after the last colon or space and is idempotent; two types with the same short name share one factory entry, and all types ending in '> >' have the same short name.", "quantifier": "all names", "why_tests_cant": "all strings", "anchors": ["flut/system_tools.cpp:56-79", "flut/factory.hpp:23"]}
{"id": "C86", "title": "reading XML", "statement": "A document with attributes, character references, comments, processing instructions, a document type and a byte order mark is read as the one tree it stands for; whatever the text, reading ends with a tree or an exception, and a document that stops anywhere inside its root element is not accepted. End tags are not compared, only the first root and the first piece of text of an element are kept, CDATA is dropped, and a bare ampersand is accepted.", "quantifier": "all texts; all documents of a grammar", "why_tests_cant": "all texts; nested to any depth", "anchors": ["flut/prop_node_tools.cpp:34-90", "contrib/rapidxml-1.13/rapidxml.hpp:1300-2320"]}
{"id": "C87", "title": "saving XML", "statement": "A tree whose keys are XML names is loaded again after it was saved, and is the same if and only if there is one root, no node with children has a value, and the other values are empty or have a visible character and no zero. Other roots and values of inner nodes are lost; keys that are not names give files that do not load or load as something else.", "quantifier": "all trees with names as keys", "why_tests_cant": "all trees and values", "anchors": ["flut/prop_node_tools.cpp:53-63,92-98", "contrib/rapidxml-1.13/rapidxml_print.hpp"]}
{"id": "C88", "title": "XML files and error codes", "statement": "load_xml gives the tree of a file; with an error code it never throws and reports missing files and parse errors in the code; a tree that was saved is loaded again whatever other files are saved in between. A stale error code hides the file, and a failed save is not reported.", "quantifier": "all file systems, paths, error codes and trees", "why_tests_cant": "all file systems", "anchors": ["flut/prop_node_tools.cpp:27-32,65-98"]}
{"id": "C89", "title": "log files", "statement": "The file of a log sink holds, at every moment, exactly the messages meant for that sink since it was made, one per line and in order, provided no other sink uses the file; nothing written is changed later, other files stay as they were, and good() tells whether the file was opened. Opening loses what an earlier run wrote, two sinks for one file overwrite each other, and messages to a file that cannot be opened are lost.", "quantifier": "all histories of sinks, levels and messages on all file systems", "why_tests_cant": "unbounded histories", "anchors": ["flut/system/log_sink.hpp:10-45", "flut/system/log.cpp"]}
{"id": "C90", "title": "text of floating point numbers", "statement": "A float or double is written as the nearest multiple of a millionth (ties to even). Text is read as the longest number it begins with (decimal, hexadecimal, inf or nan) and gives the nearest value of the type; it throws exactly if there is none or it is out of range. A number written is read again without error, with its sign and to a millionth, and writing it again gives the same text; exactly the values nearest to a whole number of millionths come back unchanged, among them all multiples of 1/64, all large numbers, infinities and nan. Order is kept both ways. The same holds in property nodes, files, vectors, vec3 text and bounds. Small numbers become zero, and text after the number is ignored.", "quantifier": "all values of both formats, all texts", "why_tests_cant": "all 2^64 values; all texts", "anchors": ["flut/system/string_cast.hpp:14-22,59-62", "flut/char_stream.hpp:34-35", "flut/prop_node.hpp:240-243", "flut/math/bounds.hpp:44-58"]}
{"id": "C91", "title": "comparing functions on float and double", "statement": "For the real numbers of the machine, with signed zeros and infinities, clamp gives the value itself inside the bounds and the bound outside, keeps order and twice is once; is_between, sign, set_if_smaller and set_if_bigger decide and select by the order of the numbers; a bounding box has the extreme coordinates of all that was added, numeric_limits max being the largest finite number. With nan: clamp passes it on, a nan bound does not count, a nan extreme is never replaced, points at infinity are not in their box.", "quantifier": "all values of both formats; all sequences of points and boxes", "why_tests_cant": "all 2^64 values, unbounded sequences", "anchors": ["flut/math/math.hpp:15-20,60-77,108", "flut/math/bounding_box.hpp:10-37"]}
{"id": "C92", "title": "bounds of float and double", "statement": "In rounded arithmetic the violation of bounds is negative, zero or positive exactly if the value is below, within or above them, also for differences smaller than the smallest normal number and at infinity; it is the correctly rounded distance, grows with the value, is zero after clamping, and is mirrored by negation, as is the range. Nan is outside all bounds and violates none; the range of finite bounds may be infinite; adding the violation to the bound need not give the value.", "quantifier": "all values and bounds of both formats", "why_tests_cant": "all 2^64 values", "anchors": ["flut/math/bounds.hpp:6-30"]}
{"id": "C93", "title": "equals on float and double", "statement": "With rounded arithmetic equals accepts all finite numbers whose distance is within the tolerance times the first, and only such up to the roundings of the two sides; exactly the finite numbers equal themselves; only zero equals zero, from either side; a larger tolerance accepts more; signs do not matter. With the default tolerance numbers up to four units in the last place apart are equal, but numbers near the smallest one equal none but themselves. Infinity equals all finite numbers but no number equals it, and the order of arguments matters.", "quantifier": "all values of both formats, all tolerances", "why_tests_cant": "all pairs of 2^64 values", "anchors": ["flut/math/math.hpp:15-20,42"]}
{"id": "C94", "title": "wrap and square_wave on float and double", "statement": "fmod is exact. The wrapped value is never outside the range, whatever is rounded; if the distances from the lower end are numbers of the format it is the value moved by whole lengths into the range and rounded once; fixed point numbers (whole degrees, say) are wrapped exactly, and are unchanged inside the range. square_wave is the exact one at every finite number. Rounding may move a value inside the range to the other end, values just below the range give the upper end, and infinite values, empty ranges and ranges longer than the largest number give nan.", "quantifier": "all values of both formats", "why_tests_cant": "all triples of 2^64 values", "anchors": ["flut/math/math.hpp:96-112"]}
{"id": "C95", "title": "average and delta of float and double", "statement": "The weight of an average counts its values exactly up to 2^24 (float) or 2^53 (double) and then stays. The sum of k values is within ((1+u)^k - 1) times the sum of their sizes of the exact one, and the average within one more rounding; fixed point values are summed exactly and their average is rounded once; with weights whose sum and products are fixed point numbers the average is the weighted one, rounded once, and zero unless the weights have a positive sum; greater values have a greater average; one value is its own average. delta is the correctly rounded change, has its sign, and is zero exactly if nothing changed. As many zeros and then ones as the counter can count have the average one; equal values may have a greater average; changes do not add up.", "quantifier": "all sequences of values of both formats", "why_tests_cant": "unbounded sequences", "anchors": ["flut/math/average.hpp:10-24", "flut/math/delta.hpp:5-13"]}
{"id": "C96", "title": "square roots on float and double", "statement": "The square root is the correctly rounded one of every number that is not negative, never overflows, keeps the order, and is nan exactly for nan and numbers below zero. signed_sqrt is an odd function with the sign of its argument, and defined for all numbers. The root of a square is the number again in spite of two roundings, unless the square is below the normal numbers or above the largest. inv is correctly rounded and invsqrt within three units of half the last place.", "quantifier": "all values of both formats", "why_tests_cant": "all 2^64 values", "anchors": ["flut/math/math.hpp:45-54"]}
{"id": "C97", "title": "vec3 on float and double", "statement": "The length is nan exactly if a part is, never negative, infinite if a part is, the same for the negated vector, zero exactly if the squares of all parts are at most half the smallest number, no less than any part whose square is normal, exact along the axes, and within 3 * 2^-p of the exact one, relative to it, unless squares are lost. A vector longer than epsilon is normalized to parts within [-1, 1] that differ from the exact ones by at most 6 * 2^-p of them and half the smallest number, with a squared length within 13 * 2^-p of 1; others stay. The distance is symmetric, the length of the difference, and zero for equal points. The dot product commutes and has an error of at most 4 * 2^-p of the sum of the sizes of its terms; the cross product changes only its sign with the order, is zero for equal vectors, and each of its parts has an error of at most 3 * 2^-p of the sizes of its two terms; sums, differences, multiples and == work part by part, each rounded correctly; division multiplies with the reciprocal and has an error of at most 3 * 2^-p. Small vectors that are not null have the length zero, large ones an infinite one and are normalized to zero; the length depends on the order of the parts; the triangle inequality fails; the float 41 divided by 41 is not 1; normalizing twice is not normalizing once.", "quantifier": "all vectors of both formats", "why_tests_cant": "all triples of 2^64 values", "anchors": ["flut/math/vec3.hpp:11-89", "flut/math/vec3_type.hpp:39-44"]}
{"id": "C98", "title": "interpolation on float and double", "statement": "Before the first key the first value is given and behind the last key the last one, with no rounding. Between two keys the result is finite and lies on the broken line up to 10 * 2^-p of the larger of the two values and two smallest numbers; at a stored key it is the stored value; two values that are not negative, or not positive, give such a result; from a value that is not positive to one that is not negative the result grows with the key. interpolated_index is exact at whole numbers, else within 4 * 2^-p of the larger value and two smallest numbers, and undefined for nan, infinities and numbers that size_t can not hold. Equal values may give another value between them; the result may fall where the values rise; keys whose difference overflows give a wrong value.", "quantifier": "all sorted keys, values and arguments of both formats", "why_tests_cant": "unbounded tables of 2^64 values", "anchors": ["flut/buffer/interpolation.hpp:12-48", "flut/buffer/buffer_access.hpp:22-26"]}
{"id": "C99", "title": "tables of functions on float and double", "statement": "A table can be made for -1 to 2^31 - 2 intervals; a lower number throws, and a greater overflows. Looking up is defined exactly if the position in the table fits an int. Inside the table the result is on the broken line through the stored values up to (5n + 22) * 2^-p of the largest stored value and two smallest numbers, outside on its prolongation up to 17 * 2^-p of the distance in steps times the largest value; at a node whose position is computed exactly it is the stored value. Nodes are within 8 * 2^-p of the largest argument from their places. So the table of a function with a Lipschitz constant follows it within half a step and these errors. The last node need not give the stored value, and tables with no intervals can not be used.", "quantifier": "all functions, ranges, numbers of intervals and arguments of both formats", "why_tests_cant": "unbounded tables of 2^64 values", "anchors": ["flut/math/regular_piecewise_linear_function.hpp:11-41"]}
{"id": "C100", "title": "polynomials and lines on float and double", "statement": "The value of a polynomial of degree D is within ((1+u)^(D+1) - 1) times the sum of the sizes of its terms of the exact one, and D^2 (C+1) V^D smallest numbers, where C bounds the coefficients and V >= 1 the argument. At zero it is the first coefficient; whole numbers that stay below 2^p are exact; for arguments that are not negative, coefficients that are not negative make it grow with the argument, also through overflow; p(-v) is bit by bit the value of the polynomial with every second coefficient negated, so even polynomials are even and odd ones odd; nan goes through. intersect_y is within two roundings of the exact place, zero for the offset, infinite or nan for a slope of zero. A coefficient zero may turn a number into nan, and the line need not have the value y where it meets y.", "quantifier": "all coefficients and arguments of both formats, all degrees", "why_tests_cant": "unbounded degrees, all 2^64 values", "anchors": ["flut/math/polynomial.hpp:8-35"]}
{"id": "C101", "title": "sorting, medians, averages and extremes of vectors of float and double", "statement": "A vector can be sorted exactly if no element is nan or no element is less than another; otherwise sorted_copy, median, top_average and sort_indices are undefined. Sorting gives the same numbers in order, the indices sorted list them in order, and neither the order of the input nor the way of sorting changes the median, apart from the sign of a zero. The median throws exactly for an empty vector; of finite numbers it is the exact median rounded once, although an even number of them is added and halved with two roundings, unless the sum of the two in the middle overflows; of an odd number it is one of them. The average is within n + 1 roundings (n + 3 for more than 2^p elements) of the mean, relative to the mean size; it is what the average class gives up to 2^p elements, rounded once for fixed point numbers, no smaller for larger values, and nan for an empty vector. top_average is the average of the smallest elements, and of zeros if there are too few. min_element and max_element give the first of the least and of the greatest; find_index the first with the value, never nan. The median of two large numbers is infinite; the average depends on the order and may be above all elements.", "quantifier": "all vectors of both formats, all sorts that meet the contract of std::sort", "why_tests_cant": "unbounded vectors of 2^64 values, and any order among equal elements", "anchors": ["flut/container_tools.hpp:21-66"]}
{"id": "C102", "title": "floating point numbers in streams", "statement": "A float or double is written to a std::ostream as the closest decimal number with as many digits as the precision, ties to even, without zeros at the end, and with an exponent of at least two digits if it is below 1e-4 or has more digits than the precision; digits and text are determined by the number, and within half a unit of the last digit. Reading it with a std::istream or a char_stream, before the end or a white character, consumes exactly this text and gives the correctly rounded value of its decimals. This is the number itself for 9 (float) or 17 (double) digits; for at most 6 (float) or 15 (double) digits and normal numbers it has the same text again, so a second round loses nothing; six digits are never read as infinity; the order is kept. So to_str and from_str of a vec3 of zeros and numbers above the smallest ones agree up to six digits, vec3 on a stream with enough digits is read without loss, a quaternion is written as w, x, y, z, and bounds written to a stream can be read. A stream that has failed gives nothing, and reading at the end fails. Infinities and nan are written but not read; different numbers may have the same text; small numbers may change their text twice; four digits of the largest float are out of range, and six of the smallest normal one may be.", "quantifier": "all numbers of both formats, all precisions, all texts behind", "why_tests_cant": "all 2^64 values and unbounded precisions", "anchors": ["flut/system/string_cast.hpp:9-12", "flut/math/vec3.hpp:96-101", "flut/math/quat.hpp:221-222", "flut/math/bounds.hpp:36-42", "flut/math/angle.hpp:124-131", "flut/char_stream.hpp:34-35"]}
{"id": "C103", "title": "storages, tables, vectors, debug files and samples as text", "statement": "After any calls the text of a storage is a line of labels and a line for each frame, the text of a table a line with Row and the column labels and a line for each row behind its label, and that of a vector a line, with fields between tabs. Fields without tabs and newlines can be recovered in one way only; numbers have neither, and are determined by their text at 9 (float) or 17 (double) digits, so that the text determines labels and values; each field is read back as the number with the digits written. The file written at exit by write_debug has one column for each label, in the order of first use, and in each column exactly the values written to it, in order, between lowest numbers that fill the gaps; nothing is written without values. output_function writes a line for each point; the points are in order, begin with the lower end, and are within 8 * 2^-p of the larger end of their places. One point is not a number, the last point may be above the upper end or infinite; a label with a tab looks like two, and frames without channels are not written.", "quantifier": "all element types, sequences of calls, labels, numbers of both formats, ranges and numbers of points", "why_tests_cant": "unbounded sequences and texts", "anchors": ["flut/storage.hpp:150-164", "flut/table.hpp:70-87", "flut/container_tools.hpp:91-98", "flut/system/debug_storage.cpp:12-38", "flut/math/math.hpp:22", "flut/debug_tools.hpp:9-20"]}
{"id": "C104", "title": "quaternions, transforms and vec4 on float and double", "statement": "Each part of a product of quaternions is within 5 * 2^-p of the product of the lengths and three smallest numbers of Hamilton's product, so the length is within 10 * 2^-p of the product of the lengths; a chain of n factors of nearly unit length stays finite and has a length between the n-th powers of bounds that are 11 * 2^-p wider; whole numbers below 2^p are multiplied exactly, the identity changes no finite quaternion, and q times its conjugate has no vector part. A vector is rotated as q v q* with an error of at most 7 * 2^-p (1 + 4 |q|^2) + | |q|^2 - 1 | of its largest part, its length is kept up to twice that, transforms add one rounding, and going there and back misses the point by at most a sum of these errors; the identity leaves finite vectors as they are. A quaternion longer than epsilon is normalized to parts within 7 * 2^-p of the exact ones, with a squared length within 16 * 2^-p of 1, others stay; is_normalized accepts all with a squared length within 3 * 2^-p of 1, and none with a finite one beyond 13 * 2^-p. Nan in any part makes all parts nan, and with an infinity no part is finite. The square of the length is the sum of the squares, but for seven roundings. vec4 works part by part, each rounded correctly, but -=, negation and multiples leave w. Products are not associative; conj(q) q is not the identity; seven factors that count as normalized may have a product that does not; (2^70, 0, 0, 0) counts as normalized and is normalized to zero.", "quantifier": "all quaternions, vectors and transforms of both formats, chains of any length", "why_tests_cant": "all tuples of 2^64 values, unbounded chains", "anchors": ["flut/math/quat.hpp:19-67,155-156", "flut/math/quat_type.hpp:11-31", "flut/math/transform.hpp:12-43", "flut/math/vec4.hpp:11-44", "flut/math/vec4_type.hpp:21-23"]}
{"id": "C105", "title": "filters and delayers on float and double", "statement": "The outputs of a filter of order N >= 1 are the one sequence that follows its difference equation with every product and sum rounded, in the order of the loop. A finite output is within (1+u)^(N+2) - 1 of the sum of the sizes of the terms, and 2N + 1 half smallest numbers, of the exact right hand side. If the impulse response of the exact feedback has sizes that add up to at most H, and inputs and outputs have room, all outputs are finite and at most H times the error of one step away from those of the exact filter, however long the input is; so it is if the coefficients of the feedback are a contraction. Whole numbers are filtered exactly while the sizes of the terms stay below 2^p; zeros give zeros. A nan is in all outputs from then on, and after an infinity no output is finite. The clock of a delayer stays within one window, and is off by at most three roundings of a window for each sample; with times that are even numbers of ticks it is exact; the value is within 12 * 2^-p of the larger of two values of the exact mix; with one sample in each window it is exactly the value of N - 1 samples ago. A stable filter may keep its smallest output for ever; an infinite sample gives nan one window early; a window of one smallest number loses a sample.", "quantifier": "all coefficients, inputs and lengths of inputs, all orders, both formats", "why_tests_cant": "unbounded sequences of 2^64 values", "anchors": ["flut/filter.hpp:8-35", "flut/math/delayer.hpp:7-35"]}
{"id": "C106", "title": "the report of a profiler", "statement": "After any history of matched calls the report has one node for the whole run, and in each node one for every section entered in it, the greatest total first. Its text has the milliseconds spent, rounded correctly, the percentage of the whole run, the percentage not spent in sections within it, and the percentage of its total lost in starting sections, each to hundredths with an error of at most half a hundredth and five roundings; it is never cut off. If names have different texts every section is found under the names of its path. Parts of a whole show between 0.00 and 100.00, the whole exactly 100.00, and the parts add up to the whole but for half a hundredth each. Sections with the same text at different addresses overwrite each other, and the one with the smallest total remains; three thirds show as 33.33 each; a section that is still open shows no time, less than none of its own and an infinite overhead.", "quantifier": "all histories, clock readings, names, sorts, both formats", "why_tests_cant": "unbounded histories and trees", "anchors": ["flut/system/profiler.cpp:70-122", "flut/string_tools.cpp:69-84"]}
{"id": "C107", "title": "timers and stopwatches on double", "statement": "A timer gives the seconds, minutes and hours since its epoch with an error of at most four roundings, never going back and zero only for no time; it is undefined only when the difference of the 64-bit counts overflows. Seconds of counts below half the whole numbers of the format are strictly increasing. The report of a stopwatch has one entry for every label, in the order of first use, then \"internal\"; each has the text, with six decimals, of the sum of its intervals. Such a sum is a number not below zero; after k measures its relative error is at most 2k roundings, and all sums together miss the time since construction, less what was skipped, by no more. Sums are exact when readings are multiples of a tick and span no more ticks than the format has whole numbers. Against the exact counts of nanoseconds each entry is off by at most 11 roundings per measure of the time on the clock. Without these bounds sums are rounded, short measures show as 0.000000, and later times cannot be told from earlier ones.", "quantifier": "all histories of calls with readings that do not go back, all labels, both formats", "why_tests_cant": "unbounded histories, all readings of the clock", "anchors": ["flut/timer.hpp:40-42", "flut/stopwatch.hpp:20-38", "flut/stopwatch.cpp:5-28", "flut/system/string_cast.hpp:19-22"]}
{"id": "C108", "title": "means, covariances and regression on float and double", "statement": "Each mean is the rounded sum of its channel in the order of the frames, divided by their number, and each covariance the rounded sum of the products of deviations from these means, divided by the number of frames. The table is symmetric bit by bit, no variance has a minus sign, and n finite values of size at most X and Y have a covariance within 50 n u X Y of the exact one (u = 2^-p). One frame has covariance zero. The line of a regression has the rounded quotient of two such sums as slope and goes through the rounded means; sequences of different lengths throw, and nothing or one point gives nan. The slope s has an error of at most 129 n^2 u (X Y + |s| X^2) / D, D the exact sum of squared deviations of x, if this sum is not drowned in rounding. Whole numbers with whole means give covariance and slope with one rounding, and points on a line with whole coefficients give exactly that line; so does regression with fixed steps for an odd number of values. A constant channel may have a variance, adding a constant may change it, and the line through two points may have half their slope.", "quantifier": "all storages, sequences of any length and values of both formats", "why_tests_cant": "unbounded sequences of 2^64 values", "anchors": ["flut/buffer/data_algorithms.hpp:8-42", "flut/math/linear_regression.hpp:10-50"]}
{"id": "C109", "title": "lines of the test framework in the log", "statement": "The history of tests, resets, reports, settings of show_passed and calls to the log decides every line that any sink receives. A failed test gives one line at error level with its number, name and message, a passed test one at info level if passed tests are shown, and a report one line with its three counts, at error level if some test ever failed. Lines go to the registered sinks whose level allows them, in order of registration; logging changes neither sinks nor counters. A sink that takes errors gets, while passed tests are not shown, exactly the failed tests in order. Without a reset tests are numbered 1, 2, 3, ... and the counts of the report add up. A line tells its number, and everything if the name has no colon or is known. After a reset numbers go on from the failures so far and the counts do not add up; names with colons can make lines ambiguous; a failure is not seen if no sink takes errors, though the report still says -1.", "quantifier": "all histories of calls, all sinks, names and messages", "why_tests_cant": "unbounded histories, any text", "anchors": ["flut/system/test_framework.cpp:8-44", "flut/system/test_framework.hpp:14-24", "flut/system/log.hpp:56-61", "flut/system/log.cpp:14-18"]}
{"id": "C110", "title": "Catmull-Rom segments of float and double", "statement": "For a parameter in [0, 1] and four points of size at most M the value is within 100 u M (u = 2^-p) of the cubic that has the values p1 and p2 and half the chords p0 p2 and p1 p3 as slopes at its ends. It is exactly p1 at zero and within 100 u M of p2 at one, so that consecutive segments meet up to that. Whole points of size at most Z and a parameter j / 2^s give the exact point if 24 Z 2^(3s) <= 2^p. nan goes through from any point; the curve of the negated points is the negated curve; curves in space are these curves by component. The segment need not end in p2, equal points need not give a constant, and points near the largest number give nan where the curve is finite.", "quantifier": "all points and parameters of both formats", "why_tests_cant": "2^320 arguments", "anchors": ["flut/math/catmull_rom.hpp:5-19", "flut/math/vec3.hpp:12-34"]}
{"id": "C111", "title": "the length of a curve of floats", "statement": "compute_spline_length is the sum, rounded to double after each term, of the float distances of the points at t0 and at the parameters of the steps 1 to steps, converted to double without error. For every curve and less than 2^31 steps it is nan if and only if a side is nan, infinite if and only if a side is infinite and none is nan, and finite otherwise: adding up never overflows. A finite length is within 2 steps / 2^53 of the sum of the sides, relatively, and not negative; it is zero if and only if all sides are. No steps, or a curve that stays where it is, give zero. From 0 to 1 the parameters are the correctly rounded i / steps, in order, between 0 and 1, and the last is exactly 1. In general they are within u |t0| + 7 u |t1 - t0| of equal steps from t0 to t1 (up to three smallest numbers); the last parameter may be past t1, and a curve that moves may have length zero.", "quantifier": "all curves, parameters and numbers of steps", "why_tests_cant": "unbounded curves, 2^31 steps", "anchors": ["flut/math/catmull_rom.hpp:48-59", "flut/math/vec3.hpp:66-67"]}
