-Q theories Verif
theories/Lib/Base.v
theories/Epoch/Model.v
theories/Epoch/Spec.v
theories/Epoch/Proofs.v
theories/Epoch/Props.v
theories/Lib/Lists.v
theories/Lib/F32.v
theories/Queue/Model.v
theories/Queue/Spec.v
theories/Queue/Proofs.v
theories/Queue/Props.v
theories/Adjacency/Model.v
theories/Adjacency/Spec.v
theories/Adjacency/Proofs.v
theories/Adjacency/Props.v
theories/Lib/Ieee.v
theories/Lib/Bytes.v
theories/Lib/F64.v
theories/Prune/Model.v
theories/Prune/Spec.v
theories/Prune/Proofs.v
theories/Prune/ProofsList.v
theories/Prune/ProofsIeee.v
theories/Prune/Props.v
theories/Search/Model.v
theories/Search/Spec.v
theories/Search/Proofs.v
theories/Search/ProofsKnn.v
theories/Search/ProofsRange.v
theories/Search/ProofsPaged.v
theories/Search/ProofsMain.v
theories/Search/Props.v
theories/Work/Model.v
theories/Work/Spec.v
theories/Work/Proofs.v
theories/Work/Props.v
theories/Disk/Model.v
theories/Disk/Spec.v
theories/Disk/Proofs.v
theories/Disk/ProofsLayout.v
theories/Disk/ProofsRead.v
theories/Disk/Props.v
theories/GraphFile/Model.v
theories/GraphFile/Spec.v
theories/GraphFile/Proofs.v
theories/GraphFile/ProofsMain.v
theories/GraphFile/Props.v
theories/Tables/Model.v
theories/Tables/Spec.v
theories/Tables/Proofs.v
theories/Tables/ProofsRows.v
theories/Tables/Props.v
theories/Pool/Model.v
theories/Pool/Spec.v
theories/Pool/Proofs.v
theories/Pool/Props.v
theories/Bits/Model.v
theories/Bits/Spec.v
theories/Bits/Proofs.v
theories/Bits/Props.v
theories/Store/Model.v
theories/Store/Spec.v
theories/Store/Proofs.v
theories/Store/ProofsLog.v
theories/Store/ProofsMain.v
theories/Store/ProofsAcquire.v
theories/Store/ProofsSolo.v
theories/Store/ProofsSeq.v
theories/Store/Props.v
theories/IdMap/Model.v
theories/IdMap/Spec.v
theories/IdMap/Proofs.v
theories/IdMap/Props.v
theories/Provider/Model.v
theories/Provider/Spec.v
theories/Provider/Proofs.v
theories/Provider/Props.v
theories/InmemNeighbors/Model.v
theories/InmemNeighbors/Spec.v
theories/InmemNeighbors/Proofs.v
theories/InmemNeighbors/Props.v
theories/Keys/Model.v
theories/Keys/Spec.v
theories/Keys/Proofs.v
theories/Keys/Props.v
theories/Labels/Model.v
theories/Labels/Spec.v
theories/Labels/Proofs.v
theories/Labels/Proofs2.v
theories/Labels/Proofs3.v
theories/Labels/Proofs4.v
theories/Labels/Proofs5.v
theories/Labels/Props.v
theories/Fsm/Model.v
theories/Fsm/Spec.v
theories/Fsm/Proofs.v
theories/Fsm/Proofs2.v
theories/Fsm/Proofs3.v
theories/Fsm/Proofs4.v
theories/Fsm/Proofs5.v
theories/Fsm/Proofs6.v
theories/Fsm/Props.v
theories/Graph/Model.v
theories/Graph/Spec.v
theories/Graph/Proofs.v
theories/Graph/Proofs2.v
theories/Graph/Proofs3.v
theories/Graph/Props.v
theories/Record/Model.v
theories/Record/Spec.v
theories/Record/Proofs.v
theories/Record/Proofs2.v
theories/Record/Proofs3.v
theories/Record/Proofs4.v
theories/Record/Proofs5.v
theories/Record/Props.v
theories/RecordDisk/Model.v
theories/RecordDisk/Spec.v
theories/RecordDisk/Proofs.v
theories/RecordDisk/Proofs2.v
theories/RecordDisk/Proofs3.v
theories/RecordDisk/Proofs4.v
theories/RecordDisk/Proofs5.v
theories/RecordDisk/Props.v
theories/Diverse/Model.v
theories/Diverse/Spec.v
theories/Diverse/Proofs.v
theories/Diverse/Proofs2.v
theories/Diverse/Proofs3.v
theories/Diverse/Proofs4.v
theories/Diverse/Proofs5.v
theories/Diverse/Proofs6.v
theories/Diverse/Props.v
theories/Filtered/Model.v
theories/Filtered/Spec.v
theories/Filtered/Proofs.v
theories/Filtered/Proofs2.v
theories/Filtered/Proofs3.v
theories/Filtered/Proofs4.v
theories/Filtered/Proofs5.v
theories/Filtered/Proofs6.v
theories/Filtered/Props.v
theories/Output/Model.v
theories/Output/Spec.v
theories/Output/Proofs.v
theories/Output/Props.v
theories/DiskSearch/Model.v
theories/DiskSearch/Spec.v
theories/DiskSearch/Proofs.v
theories/DiskSearch/Proofs2.v
theories/DiskSearch/Proofs3.v
theories/DiskSearch/Proofs4.v
theories/DiskSearch/File.v
theories/DiskSearch/Proofs5.v
theories/DiskSearch/Proofs6.v
theories/DiskSearch/Props.v
theories/DetDiv/Model.v
theories/DetDiv/Spec.v
theories/DetDiv/Proofs.v
theories/DetDiv/Proofs2.v
theories/DetDiv/Props.v
theories/WorkingSet/Model.v
theories/WorkingSet/Spec.v
theories/WorkingSet/Proofs.v
theories/WorkingSet/Proofs2.v
theories/WorkingSet/Props.v
theories/Shards/Model.v
theories/Shards/Spec.v
theories/Shards/Proofs.v
theories/Shards/Proofs2.v
theories/Shards/Proofs3.v
theories/Shards/Proofs4.v
theories/Shards/Proofs5.v
theories/Shards/Proofs6.v
theories/Shards/Props.v
theories/Rotate/Model.v
theories/Rotate/Spec.v
theories/Rotate/Proofs.v
theories/Rotate/Proofs2.v
theories/Rotate/Proofs3.v
theories/Rotate/Props.v
theories/Quant/Model.v
theories/Quant/Spec.v
theories/Quant/Proofs.v
theories/Quant/Proofs2.v
theories/Quant/Proofs3.v
theories/Quant/Props.v
theories/Simd/Model.v
theories/Simd/Spec.v
theories/Simd/Proofs.v
theories/Simd/Proofs2.v
theories/Simd/Proofs3.v
theories/Simd/Proofs4.v
theories/Simd/Ieee.v
theories/Simd/Proofs5.v
theories/Simd/Props.v
theories/BitDist/Model.v
theories/BitDist/Spec.v
theories/BitDist/Proofs.v
theories/BitDist/Proofs2.v
theories/BitDist/Proofs3.v
theories/BitDist/Proofs4.v
theories/BitDist/Proofs5.v
theories/BitDist/Props.v
theories/BitDist/Full.v
theories/BitDist/Proofs6.v
theories/BitDist/Proofs7.v
theories/BitDist/Props2.v
theories/Pq/Model.v
theories/Pq/Spec.v
theories/Pq/Proofs.v
theories/Pq/Proofs2.v
theories/Pq/Proofs3.v
theories/Pq/Proofs4.v
theories/Pq/Proofs5.v
theories/Pq/Proofs6.v
theories/Pq/Ieee.v
theories/Pq/Props.v
theories/Pq/Proofs7.v
theories/Pq/Proofs8.v
theories/Pq/Proofs9.v
theories/Pq/Proofs10.v
theories/Pq/Props2.v
theories/Kmeans/Model.v
theories/Kmeans/Spec.v
theories/Kmeans/Proofs.v
theories/Kmeans/Proofs2.v
theories/Kmeans/Proofs3.v
theories/Kmeans/Proofs4.v
theories/Kmeans/Props.v
theories/Kmeans/Proofs5.v
theories/Kmeans/Proofs6.v
theories/Kmeans/Proofs7.v
theories/Kmeans/Props2.v
theories/Kmeans/Proofs8.v
theories/Kmeans/Proofs9.v
theories/Kmeans/Props3.v
theories/Recall/Model.v
theories/Recall/Spec.v
theories/Recall/Proofs.v
theories/Recall/Proofs2.v
theories/Recall/Proofs3.v
theories/Recall/Props.v
theories/Runbook/Model.v
theories/Runbook/Spec.v
theories/Runbook/Proofs.v
theories/Runbook/Proofs2.v
theories/Runbook/Props.v
theories/Runbook/Proofs3.v
theories/Runbook/Proofs4.v
theories/Runbook/Props2.v
theories/Truth/Model.v
theories/Truth/Spec.v
theories/Truth/Proofs.v
theories/Truth/Proofs2.v
theories/Truth/Props.v
theories/Recall/Model2.v
theories/Recall/Spec2.v
theories/Recall/Proofs4.v
theories/Recall/Props2.v
theories/BfTree/Model.v
theories/BfTree/Spec.v
theories/BfTree/Proofs.v
theories/BfTree/Props.v
theories/BfTree/Model2.v
theories/BfTree/Spec2.v
theories/BfTree/Proofs2.v
theories/BfTree/Props2.v
theories/Spherical/Model.v
theories/Spherical/Spec.v
theories/Spherical/Proofs.v
theories/Spherical/Props.v
theories/Spherical/Model2.v
theories/Spherical/Spec2.v
theories/Spherical/Proofs2.v
theories/Spherical/Proofs3.v
theories/Spherical/Proofs4.v
theories/Spherical/Proofs5.v
theories/Spherical/Props2.v
theories/Spherical/Model3.v
theories/Spherical/Spec3.v
theories/Spherical/Proofs6.v
theories/Spherical/Proofs7.v
theories/Spherical/Props3.v
theories/MultiVec/Model.v
theories/MultiVec/Spec.v
theories/MultiVec/Proofs.v
theories/MultiVec/Proofs2.v
theories/MultiVec/Props.v
theories/Labels/Spec2.v
theories/Labels/Proofs6.v
theories/Labels/Props2.v
theories/Medoid/Model.v
theories/Medoid/Spec.v
theories/Medoid/Proofs.v
theories/Medoid/Proofs2.v
theories/Medoid/Props.v
theories/Medoid/Model2.v
theories/Medoid/Spec2.v
theories/Medoid/Proofs3.v
theories/Medoid/Props2.v
theories/Batch/Model.v
theories/Batch/Spec.v
theories/Batch/Proofs.v
theories/Batch/Props.v
theories/Bitmap/Model.v
theories/Bitmap/Spec.v
theories/Bitmap/Spec2.v
theories/Bitmap/Proofs.v
theories/Bitmap/Proofs2.v
theories/Bitmap/Proofs3.v
theories/Bitmap/Props.v
