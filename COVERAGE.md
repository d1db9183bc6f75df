# Which parts of the code are modelled

Made by `tools/coverage.py` from the citations in the comments of the `*Model*.v` files. Lines that a
comment names without a file are counted for the file named last before it; a file
named without lines (in a file header, or for one constant) is listed without lines. Within the lines named, what is
left out or simplified is said in the comment that names them.

## Modelled

| file under src | model files | lines named |
|---|---|---|
| br/backup.cc | BrModel | - |
| br/backup_data_base.cc | BrModel | 276-351 |
| br/backup_sdk_data.cc | BrModel | - |
| br/backup_sql_data.cc | BrModel | 143-310 |
| common/constant.h | CodecModel, DnModel, TxnModel, VecModel | 67-68, 173, 215, 265-267 |
| common/helper.cc | CodecModel, NmModel, RegModel, RtModel, ScModel, VrModel | 339-359, 415-443, 446-456, 459-466, 472-474, 476-479, 481, 897-907, 1580-1619, 1737, 1759-1769 |
| common/latch.cc | LatchModel | 67-74, 106-130, 178-190, 192-195 |
| common/latch.h | LatchModel | 29-37, 39-54, 58-65 |
| common/runnable.cc | WqModel | 40-127, 181-272, 285-422 |
| common/runnable.h | CacheModel, WqModel | 82, 152, 158-185, 187-218 |
| common/safe_map.h | KvModel, MwModel, RtModel | 115-121, 572-602, 712-734, 738-787, 791-814, 908-924, 1029-1044 |
| common/serial_helper.cc | CodecModel | 30-52, 54-75, 77-101, 103, 105-130, 132-167 |
| common/stream.cc | TxnModel, TxnReadModel | 32-34, 41-45 |
| common/synchronization.cc | LatchModel, LkModel | 42-48, 73-88, 198-201, 203-206, 218-248, 250-276 |
| common/synchronization.h | LkModel | - |
| common/threadpool.cc | LkModel | 37-48, 52-61, 129-131, 141-176, 184-197, 199, 201-205, 208-215, 217-220, 222-232, 237, 252-260, 262-267, 269-274, 278-282 |
| common/threadpool.h | LkModel | 54-56 |
| coordinator/auto_increment_control.cc | AutoModel | 78-103, 105-143, 258-298, 338-388, 390-407, 409-419 |
| coordinator/auto_increment_control.h | AutoModel | - |
| coordinator/balance_leader.cc | BalModel | 44-54, 56-106, 108-152, 154-178, 211-229, 267-271, 275-283, 291-297, 321-357, 359-379, 381-400, 447-545, 581-589, 591-612, 614-643, 645-664, 666-676, 678-685, 687-703, 705-717, 719-729, 751-784, 786-810, 822-841, 843-863, 865-873 |
| coordinator/balance_leader.h | BalModel | - |
| coordinator/balance_region.cc | BalModel | 87-135, 137-199, 201-225, 227-245, 275-315, 366-402, 415-422, 426-446, 498-588, 612-647, 649-664, 676-705, 748-767 |
| coordinator/balance_region.h | BalModel | 84 |
| coordinator/coordinator_control.cc | IdModel, MwModel, SpModel | 113-124, 130-137, 150-224, 533-554, 556-592, 601-621 |
| coordinator/coordinator_control.h | IdModel, MwModel, NmModel | 91-111 |
| coordinator/coordinator_control_coor.cc | BalModel, BrModel, JbModel, RtModel, ScModel, SpModel | 176, 319-378, 1050, 1168, 1475-1536, 1922-1984, 2176-2389, 2455-2530, 2748-2761, 3435-3465, 4398-4443, 4503-4763, 5099, 5665-5738, 5799-5819, 5821, 5856-5919, 5921-6053, 6055-6090, 6178-6245, 6248, 6278, 6304-6323, 6325-6341, 6343-6355, 6357-6394, 6396-6408, 6410-6431, 6433-6530, 6532-6593, 6595-6743, 6815, 7079-7235 |
| coordinator/coordinator_control_fsm.cc | IdModel, JbModel, MwModel, NmModel, RtModel, SpModel | 65-128, 417-450, 1065-1104, 1109, 1227-1356, 1367-1425, 1429-1690, 1739-1836, 1848-1972, 1987-2110, 2404-2468, 2585-2592, 2598-2599 |
| coordinator/coordinator_control_meta.cc | NmModel, RtModel, SpModel | 174-250, 255-308, 503-518, 749-773, 828-902, 1866-1943, 2123-2164, 2167-2212, 3019-3062, 3064-3109, 3111-3147, 3482-3532, 3534-3586, 3690-3800 |
| coordinator/coordinator_control_watch.cc | MwModel | 41-74, 76-105, 107-179, 181-270, 275-360, 362-398, 510-571, 578-654, 656-698 |
| coordinator/coordinator_interaction.cc | CiModel | 70-73 |
| coordinator/coordinator_interaction.h | CiModel | 41, 94-103, 122-242, 251-286 |
| coordinator/coordinator_meta_storage.h | IdModel, JbModel, NmModel, SpModel | 40, 69-99, 101-111, 141-163, 203-220, 410-412, 548-822, 872 |
| coordinator/kv_control.cc | IdModel, KvModel | 44-60, 73-80, 82-120, 229-250 |
| coordinator/kv_control.h | KvModel, LeaseModel, WatchModel | 52-69, 71-115, 330-362 |
| coordinator/kv_control_fsm.cc | IdModel, KvModel, WatchModel | 73-92, 94-111, 327-595 |
| coordinator/kv_control_kv.cc | KvModel, LeaseModel, WatchModel | 33, 36, 45, 53-64, 90-130, 132-142, 144-153, 172-184, 186-190, 195-297, 299-338, 348-483, 492-563, 565-745, 747-886, 888-945, 947-982, 984-1107 |
| coordinator/kv_control_lease.cc | LeaseModel | 36-43, 51-118, 120-161, 163-221, 233-264, 279-290, 313-349, 359-465, 527-556 |
| coordinator/kv_control_watch.cc | WatchModel | 35, 46-78, 80-117, 120-147, 149-197, 200-205, 208-244, 271-369 |
| coordinator/tso_control.cc | TsoModel | 249-284, 286-310, 322-330, 380-391, 418-452 |
| coordinator/tso_control.h | TsoModel | 32-37, 61-99, 101-135, 137-188 |
| coprocessor/aggregation.cc | CpModel | 31-104, 106-119 |
| coprocessor/aggregation_manager.cc | CpModel | 31-60, 62-107, 109-219, 254-264, 320-352, 381-495 |
| coprocessor/coprocessor.cc | CpModel | 60-223, 225-275, 291-392, 394-485, 487-513, 515-620, 676-711, 713-782, 784-799, 801-835 |
| coprocessor/coprocessor_v2.cc | CpModel | 224-328, 330-455, 488-747 |
| coprocessor/utils.cc | CpModel | 170-183, 185-221, 458-485, 822-1017 |
| crontab/crontab.cc | CrModel | 29-44, 46-48, 71-86, 112-132, 134-152, 154-159, 161-170 |
| crontab/crontab.h | CrModel | 38-59 |
| diskann/diskann_core.cc | DnModel | 42-64, 71-133, 135-204, 206-245, 314-332, 375-376, 393-437, 464-636, 638-814, 816-878, 881-883 |
| diskann/diskann_core.h | DnModel | - |
| diskann/diskann_item.cc | DnModel | 56-71, 75-83, 94-185, 187-284, 289-366, 371-460, 462-569, 647-695, 697-745, 747-770, 772-924, 962-1013, 1052-1080, 1119-1209, 1211-1300, 1370-1393 |
| diskann/diskann_item.h | DnModel | 103-150 |
| diskann/diskann_service_handle.cc | DnModel | - |
| diskann/diskann_utils.cc | DnModel | - |
| diskann/diskann_utils.h | DnModel | - |
| document/codec.cc | CodecModel | 34-86, 88-100, 102-107, 109-142, 144-152, 165-173, 270-276, 299-308 |
| document/document_index.cc | DiModel | 133-156, 163-209, 211-230, 232-347, 349-391, 393-445, 703-718, 726-777, 1099-1157, 1187-1207 |
| document/document_index_factory.cc | DiModel | 74-86 |
| document/document_index_manager.cc | DiModel | 507-722, 724-868, 1012-1036, 1040-1076 |
| engine/concurrency_manager.cc | ConcModel | 23-27 |
| engine/concurrency_manager.h | ConcModel | 37-48 |
| engine/engine.h | VrModel | 133 |
| engine/gc_safe_point.cc | SpModel | 73-113, 115-124, 154-161, 164-177 |
| engine/gc_safe_point.h | SpModel | - |
| engine/raft_store_engine.cc | RawModel, RegModel, VecModel | 86-161, 417-444, 721-965 |
| engine/rocks_raw_engine.cc | RawModel, RegModel, SnModel, TxnModel | 495-545, 595-654, 675-727, 1140-1150 |
| engine/storage.cc | RawModel, SessModel, VecModel | 120-173, 205-291, 293-456 |
| engine/txn_engine_helper.cc | BrModel, ConcModel, CpModel, GcModel, SpModel, TxnModel, TxnReadModel | 29-39, 41-53, 64-84, 131-169, 171-202, 204-282, 284-384, 386-444, 446-544, 546-575, 577-650, 652-676, 678-778, 780-806, 823-950, 955-1040, 1045-1056, 1063-1121, 1133-1142, 1147-1219, 1223-1461, 1478-1676, 1684-1968, 1972-2030, 2034-2178, 2182-2206, 2208-2453, 2455-2466, 2468-2625, 2627-2672, 2736-3262, 3266-3481, 3485-3657, 3661-3914, 3918-4071, 4076-4186, 4189-4225, 4233-4340, 4344-4428, 4430-4608, 4612-4718, 4846-5102, 5104-5405, 5459-5556, 5619-5656, 5826-5888, 5926-5934, 5953-6170, 6273-6414, 6416-6593, 6650-6706, 6709-6833, 6943-7153, 7717-7775 |
| engine/txn_engine_helper.h | TxnReadModel | 105-135 |
| event/store_state_machine_event.cc | RawModel, RegModel, SnModel | 84-110, 112-135, 187 |
| handler/raft_apply_handler.cc | DiModel, RawModel, RegModel, SnModel, VecModel, VrModel | 63-170, 235-441, 444-484, 486-698, 702-723, 749-790, 792-884, 886-1030, 1052-1066, 1115-1540, 1905-2094 |
| handler/raft_apply_handler_txn.cc | GcModel, RegModel, TxnModel | 40-254, 256-292 |
| handler/raft_snapshot_handler.cc | SnModel | 40, 192-246, 361-450, 469-484 |
| handler/raft_vote_handler.cc | LogModel, VecModel | 57, 81 |
| log/index_term_map.cc | LogModel | 29-56, 58-75, 77-93, 95-99 |
| log/index_term_map.h | LogModel | 35-37 |
| log/rocks_log_storage.cc | DiModel, LogModel, RegModel, VecModel | 92-110, 112-130, 136-145, 147-152, 156-174, 176-188, 303-379, 479-483, 491-498, 500-507, 533-545, 547-588, 664-688, 711-722, 736-746, 796-800, 802-818, 820-836, 881-892, 894-905, 907-935, 937-965, 1015-1048, 1050-1075, 1077-1137, 1139-1183, 1203-1218, 1228-1278, 1281-1308, 1310-1356, 1361-1380, 1432-1458, 1478-1488, 1490-1515, 1517-1569, 1572-1583, 1586-1597, 1599-1616 |
| log/rocks_log_storage.h | LogModel | 43-46, 50-56, 60-64, 93-100, 174-317 |
| merge/merge_checker.cc | ScModel | 96-123, 163-246, 248-319, 321-368, 396-514 |
| meta/store_meta_manager.cc | LatchModel, RegModel, ScModel | 249-252, 387-402, 901-975, 1011-1024 |
| meta/store_meta_manager.h | RegModel, TxnModel, VecModel | 188-199 |
| mvcc/codec.cc | CodecModel, TxnModel | 35-37, 40, 53-74, 80-110, 112-130, 136-156, 168-180, 182-198, 230-252, 254-283, 285-301, 307-324, 326-349, 351-367, 379-387, 488-500, 502-516 |
| mvcc/codec.h | BrModel, CodecModel, RegModel | 29, 34 |
| mvcc/iterator.cc | MvccModel, SessModel, VecModel | 46-75, 91-120, 126-166 |
| mvcc/iterator.h | MvccModel | 29 |
| mvcc/reader.cc | MvccModel | 35-211, 213-392, 394-573 |
| mvcc/ts_provider.cc | CacheModel | 34, 306-322 |
| mvcc/ts_provider.h | CacheModel | 41-108, 110-119, 121-156 |
| raft/dingo_filesystem_adaptor.cc | SnModel | 128, 131, 134-218, 230-235, 252-266, 420-489, 693-698, 701-735 |
| raft/dingo_filesystem_adaptor.h | SnModel | 137-143, 149-164 |
| raft/meta_state_machine.cc | IdModel, TsoModel | 101-121, 194-250 |
| raft/raft_node.cc | RawModel, VecModel | 124-149 |
| raft/store_state_machine.cc | DiModel, RawModel, RegModel, SnModel, VecModel, WqModel | 37, 70-80, 107-316, 325-336, 340-342, 362-427 |
| scan/scan.cc | CpModel, SessModel | 72-106, 134-166, 226-257, 369-515, 517-558 |
| scan/scan.h | SessModel | 62-160 |
| scan/scan_filter.cc | CpModel, SessModel | 36-53 |
| scan/scan_filter.h | SessModel | 26 |
| scan/scan_manager.cc | SessModel | 104-126, 138-147, 149-159, 161-186, 211-225, 235-244, 246-256, 258-283 |
| server/coordinator_service.cc | SpModel | 2337-2397 |
| server/index_service.cc | VecModel, VrModel | 373-528, 530-700, 805-842 |
| server/main.cc | RtModel | 110 |
| server/meta_service.cc | AutoModel, IdModel, NmModel | 169-191, 193-223, 225-241, 421-497, 634, 666-724, 785-1000, 1240-1300, 1430-1470, 1517-1747, 1785-1830, 2215-2290, 4000 |
| server/push_service.cc | JbModel | 58-62, 84-107 |
| server/server.cc | LogModel | 478-486 |
| server/service_helper.cc | BrModel, LatchModel, RawModel | 56-184, 322-395, 421-443 |
| server/store_service.cc | BrModel, ConcModel, RawModel, SessModel, SpModel, TxnModel | 56-80, 85-330, 338-868, 896-1110, 1142-1330, 1403-1640, 1676-1735, 1795-1860, 1897-1956, 2009-2013, 2039-2082, 2152-2203, 2205-2279, 2303-2341, 2353, 2417-2454, 2467-2472, 2530-2562, 2641-2669, 2690-2698, 2870-2904, 3107-3141, 3215-3221, 3228-3261, 3376-3455, 3729-3818 |
| server/version_service.cc | KvModel, LeaseModel, WatchModel | 130-172, 443-490, 546-605, 662-682, 687-698, 700-704 |
| split/split_checker.cc | ScModel | 48-59, 61-67, 71-80, 82-90, 92-101, 103-138, 140-168, 170-206, 242-365, 480-484 |
| split/split_checker.h | ScModel | 37-44, 199-204 |
| store/region_controller.cc | JbModel, ScModel | 455-461, 1741-1752, 1759-1769, 1771, 1774-1777, 1796-1809, 1884-1899, 1962-1999, 2001-2006 |
| vector/codec.cc | CodecModel, VecModel, VrModel | 30-41, 43-56, 58-74, 76-81, 83-95, 97-102, 104-136, 138-146, 159-167, 169-178, 180-188, 190-208, 210-220, 222-232, 234-256, 258-272, 293-302 |
| vector/vector_index.cc | LkModel, VecModel, VqModel | 58-71, 73-104, 194-227, 231-242, 244-301, 420-641, 668-679, 686-694, 716-722, 790-830, 832-858, 860-966, 990-1010, 1012-1054, 1056-1095, 1097-1106, 1110-1158 |
| vector/vector_index.h | VecModel, VrModel | 60-300 |
| vector/vector_index_diskann.cc | DnModel | 739-886 |
| vector/vector_index_factory.cc | VecModel | 40-120 |
| vector/vector_index_flat.cc | VecModel | 60-100, 121-190, 195-210 |
| vector/vector_index_hnsw.cc | LkModel, VecModel | 85-201, 203-254, 258-280 |
| vector/vector_index_manager.cc | VecModel | 60-480, 764-856, 859-1243 |
| vector/vector_index_snapshot_manager.cc | LogModel, VecModel | 501-795, 798-887 |
| vector/vector_index_utils.cc | VecModel, VrModel | 551-566, 1296-1323, 1325-1339, 1397-1445 |
| vector/vector_reader.cc | VrModel | 80-101, 118-124, 176-209, 271-288, 307-335, 369-403, 468-513, 527-590, 640-642, 677-700, 728-828, 830-851, 853-978, 1189-1203, 1205-1243, 1257-1321, 1772-1779, 1781-1840, 1853-1860, 1873-2048 |

## Not modelled

No part of these files is modelled; of the files above, nothing outside the lines named.

- `br`: backup_data.cc, backup_meta.cc, backup_meta_base.cc, backup_sdk_meta.cc, backup_sql_meta.cc, helper.cc, interaction_manager.cc, interation.cc, main.cc, parameter.cc, restore.cc, restore_data.cc, restore_data_base.cc, restore_meta.cc, restore_region_data.cc, restore_region_data_manager.cc, restore_region_meta.cc, restore_region_meta_manager.cc, restore_sdk_data.cc, restore_sdk_meta.cc, restore_sql_data.cc, restore_sql_meta.cc, router.cc, sst_file_reader.cc, sst_file_writer.cc, tool.cc, tool_client.cc, tool_diff.cc, tool_dump.cc, tool_utils.cc, utils.cc
- `client`: client_interation.cc, client_router.cc, coordinator_client_function_coor.cc, coordinator_client_function_incr.cc, coordinator_client_function_kv.cc, coordinator_client_function_lease.cc, coordinator_client_function_meta.cc, coordinator_client_function_meta_watch.cc, coordinator_client_function_watch.cc, dingodb_client.cc, store_client_function.cc, store_client_function_txn.cc
- `client_v2`: coordinator.cc, document_index.cc, dump.cc, interation.cc, kv.cc, main.cc, meta.cc, pretty.cc, restore.cc, router.cc, store.cc, tools.cc, vector_index.cc
- `common`: failpoint.cc, file_reader.cc, logging.cc, role.cc, service_access.cc, slice.cc, syscheck.cc, tracker.cc, uuid.cc, version.cc
- `config`: config_helper.cc, config_manager.cc, yaml_config.cc
- `coprocessor`: coprocessor_scalar.cc, raw_coprocessor.cc, rel_expr_helper.cc
- `diskann`: diskann_item_manager.cc, diskann_item_parameter.cc, diskann_item_runtime.cc
- `document`: document_reader.cc
- `engine`: bdb_raw_engine.cc, gc_task_tracker.cc, mem_engine.cc, mono_store_engine.cc, xdprocks_raw_engine.cc
- `event`: event.cc
- `handler`: handler.cc
- `log`: log_storage_manager.cc, segment_log_storage.cc
- `meta`: meta_reader.cc, meta_writer.cc
- `metrics`: store_bvar_metrics.cc, store_metrics_manager.cc
- `raft`: raft_node_manager.cc, state_machine.cc
- `report`: allure.cc, web.cc
- `server`: cluster_service.cc, debug_service.cc, diskann_service.cc, document_service.cc, file_service.cc, job_service.cc, node_service.cc, region_service.cc, store_metrics_service.cc, store_operation_service.cc, table_service.cc, util_service.cc
- `simd`: distances_avx.cc, distances_avx512.cc, distances_ref.cc, distances_sse.cc, hook.cc
- `store`: heartbeat.cc, store_controller.cc
- `vector`: vector_index_bruteforce.cc, vector_index_ivf_flat.cc, vector_index_ivf_pq.cc, vector_index_raw_ivf_pq.cc, vector_index_snapshot.cc
- `serial`, `libexpr`: empty submodules in /repo
- everything outside `src`: proto files (message fields appear as record fields of the model), java, python, conf, scripts and tests
- libraries: braft and brpc (raft is an ordered log of committed entries, or commits in any order where the comment says so), RocksDB (ordered maps with atomic batches), faiss, hnswlib, diskann, tantivy (see the `Vec` and `Vq` comments for what is assumed of an index)
